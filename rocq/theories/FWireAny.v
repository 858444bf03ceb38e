(** The verifier's program of the GF(2^128) engine against an arbitrary prover program. *)
From Coq Require Import NArith List Bool Arith Lia.
From Verif Require Import Word GF128 BoolModel BoolSpec BoolIOModel BoolIOSpec F2kModel F2kSpec WireModel WireProofs WireAny FWireModel FWireFollow.
Import ListNotations.

(** the messages of a given length, and the digests that were taken just before them: every challenge is followed by a
    message of 32 or 80 bytes, and messages of 16 bytes are corrections *)
Definition of_len (n : nat) (l : list (list N)) : list (list N) := filter (fun x => Nat.eqb (length x) n) l.
Fixpoint digs (n : nat) (datas dg : list (list N)) : list (list N) :=
  match datas with
  | [] => []
  | x :: ds => if Nat.eqb (length x) 16 then digs n ds dg else
               match dg with [] => [] | h :: dg' => if Nat.eqb (length x) n then h :: digs n ds dg' else digs n ds dg' end
  end.

Lemma eat_bits {R} n : forall (k : list bool -> proc R) reads dl r, eat (get_bits n k) reads dl = Some r ->
  exists l reads', length l = n /\ reads = map RdBit l ++ reads' /\ eat (k l) reads' dl = Some r.
Proof.
  induction n as [|n IH]; intros k reads dl r E.
  - exists [], reads. auto.
  - cbn [get_bits eat] in E. destruct reads as [|[b|x] reads]; try discriminate.
    destruct (IH _ _ _ _ E) as (l & reads' & L & -> & E'). exists (b :: l), reads'. cbn. auto.
Qed.
Lemma read_bits_app l r : read_bits (map RdBit l ++ r) = l ++ read_bits r.
Proof. induction l as [|b l IH]; [reflexivity|]. cbn. now rewrite IH. Qed.
Lemma read_data_app l r : read_data (map RdBit l ++ r) = read_data r.
Proof. induction l as [|b l IH]; [reflexivity|]. cbn. exact IH. Qed.
Lemma skipn_app_nth {A} (z : A) l : forall n bits t, skipn n bits = l ++ t -> skipn (n + length l) bits = t /\ forall i, i < length l -> nth (n + i) bits z = nth i l z.
Proof.
  induction l as [|b l IH]; intros n bits t E.
  - rewrite Nat.add_0_r. split; [exact E|]. cbn. lia.
  - cbn [app] in E. destruct (skipn_cons _ _ _ _ z E) as [N1 Q]. destruct (IH _ _ _ Q) as [Q1 Q2]. cbn [length].
    replace (n + S (length l)) with (S n + length l) by lia. split; [exact Q1|]. intros [|i] Hi.
    + rewrite Nat.add_0_r. exact N1.
    + replace (n + S i) with (S n + i) by lia. cbn [nth]. apply Q2. lia.
Qed.

Section Ver.
  Variables (extk : nat -> N) (voleK : nat -> nat -> N) (bK oK : nat -> N) (delta : N).
  Variables (threads bufsz polysz : nat) (junk : nat -> nat -> N).
  Variables (G : list N -> nat -> N) (Gp : list N -> N).
  Hypothesis Hb : 1 <= bufsz.
  Variables (bits : list bool) (datas : list (list N)) (dg : list (list N)).
  Notation seeds := (fun k : nat => G (nth k (digs 32 datas dg) [])).
  Notation pseeds := (fun k : nat => Gp (nth k (digs 80 datas dg) [])).
  Notation corr := (fun i => dec_bytes (nth i (of_len 16 datas) [])).
  Notation bitmsg := (fun i => nth i bits false).
  Notation chkmsg := (fun k => dec2 (nth k (of_len 32 datas) [])).
  Notation polymsg := (fun k => dec5 (nth k (of_len 80 datas) [])).
  Notation vstep := (fv_step extk voleK bK oK delta threads bufsz polysz seeds pseeds junk corr bitmsg chkmsg polymsg).
  Notation vrun := (fv_run extk voleK bK oK delta threads bufsz polysz seeds pseeds junk corr bitmsg chkmsg polymsg).
  Notation vfinal := (fv_final oK delta threads seeds pseeds junk chkmsg polymsg).
  Notation vmanage := (fv_manage oK delta threads seeds junk chkmsg).
  Notation vbatch := (fv_batch delta pseeds polymsg).
  Notation vmul := (fv_mul voleK oK delta threads bufsz seeds junk corr chkmsg).
  Notation vchain := (fv_chain bK delta polysz pseeds bitmsg polymsg).
  Notation vprog := (fver_prog extk voleK bK oK delta threads bufsz polysz junk G Gp).
  Definition fat_pos (v : fvst) (reads : list rd) (dl : list (list N)) : Prop :=
    skipn (fv_bits v) bits = read_bits reads /\ skipn (fv_corr v) (of_len 16 datas) = of_len 16 (read_data reads) /\
    skipn (fv_chk v) (of_len 32 datas) = of_len 32 (read_data reads) /\ skipn (fv_pchk v) (of_len 80 datas) = of_len 80 (read_data reads) /\
    skipn (fv_chk v) (digs 32 datas dg) = digs 32 (read_data reads) dl /\ skipn (fv_pchk v) (digs 80 datas dg) = digs 80 (read_data reads) dl.

  Lemma feat_check v k reads dl r : fat_pos v reads dl -> eat (fv_check_prog oK delta threads junk G v k) reads dl = Some r ->
    exists reads' dl', fat_pos (vmanage v) reads' dl' /\ eat (k (vmanage v)) reads' dl' = Some r.
  Proof.
    intros (P1 & P2 & P3 & P4 & P5 & P6) E. unfold fv_check_prog in E. cbn [eat] in E. destruct dl as [|h dl]; [discriminate|].
    destruct reads as [|[b|x] reads]; try discriminate. destruct (Nat.eqb_spec (length x) 32) as [L|L]; [|discriminate].
    cbn [read_bits read_data] in *. unfold of_len in P2, P3, P4. cbn [filter digs] in *. rewrite L in *. cbn [Nat.eqb] in *.
    fold (of_len 16 datas) in P2. fold (of_len 16 (read_data reads)) in P2. fold (of_len 32 datas) in P3. fold (of_len 32 (read_data reads)) in P3.
    fold (of_len 80 datas) in P4. fold (of_len 80 (read_data reads)) in P4.
    destruct (skipn_cons _ _ _ _ [] P3) as [N3 Q3]. destruct (skipn_cons _ _ _ _ [] P5) as [N5 Q5].
    exists reads, dl. split.
    - repeat split; assumption.
    - unfold fv_manage in *. cbn beta in *. rewrite N3, N5. exact E.
  Qed.
  Lemma feat_batch v k reads dl r : fat_pos v reads dl -> eat (fv_batch_prog delta Gp v k) reads dl = Some r ->
    match vbatch v with
    | None => r = None
    | Some v1 => exists reads' dl', fat_pos v1 reads' dl' /\ eat (k v1) reads' dl' = Some r end.
  Proof.
    intros P E. unfold fv_batch_prog in E. destruct (Nat.eqb_spec (length (fv_poly v)) 0) as [Z|Z].
    { unfold fv_batch. rewrite Z. cbn [Nat.eqb]. eauto. }
    destruct P as (P1 & P2 & P3 & P4 & P5 & P6). cbn [eat] in E. destruct dl as [|h dl]; [discriminate|].
    destruct reads as [|[b|x] reads]; try discriminate. destruct (Nat.eqb_spec (length x) 80) as [L|L]; [|discriminate].
    cbn [read_bits read_data] in *. unfold of_len in P2, P3, P4. cbn [filter digs] in *. rewrite L in *. cbn [Nat.eqb] in *.
    fold (of_len 16 datas) in P2. fold (of_len 16 (read_data reads)) in P2. fold (of_len 32 datas) in P3. fold (of_len 32 (read_data reads)) in P3.
    fold (of_len 80 datas) in P4. fold (of_len 80 (read_data reads)) in P4.
    destruct (skipn_cons _ _ _ _ [] P4) as [N4 Q4]. destruct (skipn_cons _ _ _ _ [] P6) as [N6 Q6].
    unfold fv_batch in *. rewrite (proj2 (Nat.eqb_neq _ _) Z) in *. cbn beta zeta in *. rewrite N4, N6.
    destruct (ver_poly_accept delta (fv_poly v) (Gp h) (dec5 x)).
    - exists reads, dl. split; [repeat split; assumption|exact E].
    - cbn [eat] in E. destruct reads, dl; try discriminate. now injection E.
  Qed.
  Lemma feat_mul v a b k reads dl r : fat_pos v reads dl -> eat (fv_mul_prog voleK oK delta threads bufsz junk G v a b k) reads dl = Some r ->
    exists reads' dl', fat_pos (vmul v a b) reads' dl' /\ eat (k (vmul v a b)) reads' dl' = Some r.
  Proof.
    intros P E. unfold fv_mul_prog in E.
    assert (GO : forall v reads dl, Nat.eqb (fv_ccnt v) bufsz = false -> fat_pos v reads dl ->
      eat (PAlign true (PGet 16 (fun x => k (fv_mul voleK oK delta threads bufsz (fun _ _ => 0%N) junk (fun _ => dec_bytes x) (fun _ => (0, 0)%N) v a b)))) reads dl = Some r ->
      exists reads' dl', fat_pos (vmul v a b) reads' dl' /\ eat (k (vmul v a b)) reads' dl' = Some r).
    { clear v reads dl P E. intros v reads dl Hc (P1 & P2 & P3 & P4 & P5 & P6) E. cbn [eat] in E.
      destruct reads as [|[c|x] reads]; try discriminate. destruct (Nat.eqb_spec (length x) 16) as [L|L]; [|discriminate].
      cbn [read_bits read_data] in *. unfold of_len in P2, P3, P4. cbn [filter digs] in *. rewrite L in *. cbn [Nat.eqb] in *.
      fold (of_len 16 datas) in P2. fold (of_len 16 (read_data reads)) in P2. fold (of_len 32 datas) in P3. fold (of_len 32 (read_data reads)) in P3.
      fold (of_len 80 datas) in P4. fold (of_len 80 (read_data reads)) in P4.
      destruct (skipn_cons _ _ _ _ [] P2) as [N2 Q2]. exists reads, dl.
      unfold fv_mul, fv_pre in *. rewrite Hc in *. destruct (Nat.eqb (fv_acnt v) bufsz);
        (split; [repeat split; assumption|]); cbn [fv_refill fv_corr] in *; cbv beta; rewrite N2; exact E. }
    destruct (Nat.eqb (fv_ccnt v) bufsz) eqn:Ec; [|now apply (GO v reads dl)].
    destruct (feat_check _ _ _ _ _ P E) as (reads' & dl' & P' & E').
    replace (vmul v a b) with (vmul (fv_clear (vmanage v)) a b).
    - apply (GO (fv_clear (vmanage v)) reads' dl'); auto. cbn [fv_clear fv_ccnt]. apply Nat.eqb_neq. lia.
    - unfold fv_mul, fv_pre. rewrite Ec. change (fv_ccnt (fv_clear (vmanage v))) with 0. rewrite (proj2 (Nat.eqb_neq 0 bufsz)) by lia. reflexivity.
  Qed.
  Lemma feat_chain v row k reads dl r : fat_pos v reads dl -> eat (fv_chain_prog bK delta polysz Gp v row k) reads dl = Some r ->
    match vchain v row with
    | None => r = None
    | Some v1 => exists reads' dl', fat_pos v1 reads' dl' /\ eat (k v1) reads' dl' = Some r end.
  Proof.
    intros (P1 & P2 & P3 & P4 & P5 & P6) E. unfold fv_chain_prog in E. destruct (eat_bits _ _ _ _ _ E) as (l & reads' & L & -> & E'). clear E.
    rewrite read_bits_app in P1. rewrite read_data_app in P2, P3, P4, P5, P6.
    destruct (skipn_app_nth false _ _ _ _ P1) as [Q1 N1]. rewrite L in Q1, N1.
    assert (GO : forall v2 reads2 dl2, fv_bits v2 = fv_bits v -> fv_bcnt v2 = fv_bcnt v ->
      (length (fv_poly v2) = 0 \/ Nat.leb polysz (length (fv_poly v2)) = false) ->
      skipn (fv_bits v + 130) bits = read_bits reads2 /\ skipn (fv_corr v2) (of_len 16 datas) = of_len 16 (read_data reads2) /\
      skipn (fv_chk v2) (of_len 32 datas) = of_len 32 (read_data reads2) /\ skipn (fv_pchk v2) (of_len 80 datas) = of_len 80 (read_data reads2) /\
      skipn (fv_chk v2) (digs 32 datas dg) = digs 32 (read_data reads2) dl2 /\ skipn (fv_pchk v2) (digs 80 datas dg) = digs 80 (read_data reads2) dl2 ->
      eat (match fv_chain bK delta polysz (fun _ => 0%N) (fun j => nth (j - fv_bits v2) l false) (fun _ => (0, 0, 0, 0, 0)%N) v2 row with
           | None => PDone None | Some s' => k s' end) reads2 dl2 = Some r ->
      exists v3, vchain v2 row = Some v3 /\ exists reads' dl', fat_pos v3 reads' dl' /\ eat (k v3) reads' dl' = Some r).
    { intros v2 reads2 dl2 Eb Ec Hp (R1 & R2 & R3 & R4 & R5 & R6) X. unfold fv_chain in *.
      assert (B : forall ps ms, (if Nat.leb polysz (length (fv_poly v2)) then fv_batch delta ps ms v2 else Some v2) = Some v2).
      { intros ps ms. destruct Hp as [Hp| ->]; [|reflexivity]. unfold fv_batch. rewrite Hp. cbn [Nat.eqb]. now destruct (Nat.leb polysz 0). }
      rewrite !B in *. eexists. split; [reflexivity|]. exists reads2, dl2. split.
      - unfold fat_pos. cbn [fv_bits fv_corr fv_chk fv_pchk]. rewrite Eb. repeat split; assumption.
      - rewrite <- X.
        assert (M : map (fun i => ver_input delta (bK (fv_bcnt v2 + i)) (nth (fv_bits v2 + i - fv_bits v2) l false)) (seq 0 130) =
                    map (fun i => ver_input delta (bK (fv_bcnt v2 + i)) (nth (fv_bits v2 + i) bits false)) (seq 0 130)).
        { apply map_ext_in. intros i Hi. apply in_seq in Hi. f_equal. replace (fv_bits v2 + i - fv_bits v2) with i by lia.
          rewrite Eb. symmetry. apply N1. lia. }
        rewrite M. reflexivity. }
    cbv zeta in E'. destruct (Nat.leb polysz (length (fv_poly v))) eqn:Ef.
    - destruct (Nat.eqb_spec (length (fv_poly v)) 0) as [Z|Z].
      + unfold fv_batch_prog in E'. rewrite Z in E'. cbn [Nat.eqb] in E'.
        destruct (GO v reads' dl eq_refl eq_refl (or_introl Z) (conj Q1 (conj P2 (conj P3 (conj P4 (conj P5 P6))))) E') as (v3 & -> & X). exact X.
      + (* the batch reads its message from a state whose bits have already been read *)
        unfold fv_batch_prog in E'. rewrite (proj2 (Nat.eqb_neq _ _) Z) in E'.
        cbn [eat] in E'. destruct dl as [|h dl]; [discriminate|].
        destruct reads' as [|[b|x] reads']; try discriminate. destruct (Nat.eqb_spec (length x) 80) as [L8|L8]; [|discriminate].
        cbn [read_bits read_data] in *. unfold of_len in P2, P3, P4. cbn [filter digs] in *. rewrite L8 in *. cbn [Nat.eqb] in *.
        fold (of_len 16 datas) in P2. fold (of_len 16 (read_data reads')) in P2. fold (of_len 32 datas) in P3. fold (of_len 32 (read_data reads')) in P3.
        fold (of_len 80 datas) in P4. fold (of_len 80 (read_data reads')) in P4.
        destruct (skipn_cons _ _ _ _ [] P4) as [N4 Q4]. destruct (skipn_cons _ _ _ _ [] P6) as [N6 Q6].
        assert (EB : fv_batch delta (fun _ => Gp h) (fun _ => dec5 x) v = vbatch v).
        { unfold fv_batch. rewrite (proj2 (Nat.eqb_neq _ _) Z). cbv beta zeta. now rewrite N4, N6. }
        rewrite EB in E'. destruct (vbatch v) as [v'|] eqn:Eb.
        * destruct (vbatch_facts delta pseeds polymsg v v' Z Eb) as (A0 & A1 & A2 & A3 & A4 & A5 & A6 & A7).
          assert (EC : vchain v row = vchain v' row).
          { unfold fv_chain. rewrite Ef, Eb, A4, A5.
            assert (Zz : (if Nat.leb polysz (length (fv_poly v')) then vbatch v' else Some v') = Some v').
            { unfold fv_batch. rewrite A2. cbn [length Nat.eqb]. now destruct (Nat.leb polysz 0). }
            rewrite Zz. rewrite ?A4, ?A5. reflexivity. }
          rewrite EC. destruct (GO v' reads' dl A4 A5 (or_introl (f_equal (@length N) A2))) as (v3 & -> & X); [|exact E'|exact X].
          rewrite A3, A6, A7. repeat split; assumption.
        * unfold fv_chain. rewrite Ef, Eb. cbn [eat] in E'. destruct reads', dl; try discriminate. now injection E'.
    - destruct (GO v reads' dl eq_refl eq_refl (or_intror Ef) (conj Q1 (conj P2 (conj P3 (conj P4 (conj P5 P6))))) E') as (v3 & -> & X). exact X.
  Qed.
  Lemma feat_gate v g k reads dl r : fat_pos v reads dl -> eat (fv_gate_prog extk voleK bK oK delta threads bufsz polysz junk G Gp v g k) reads dl = Some r ->
    match vstep v g with
    | None => r = None
    | Some v1 => exists reads' dl', fat_pos v1 reads' dl' /\ eat (k v1) reads' dl' = Some r end.
  Proof.
    intros P E. destruct g; cbn [fv_gate_prog fv_step] in *; try (now apply (feat_chain v _ k reads dl)).
    - exists reads, dl. split; [exact P|exact E].
    - exists reads, dl. split; [exact P|exact E].
    - now apply (feat_mul v _ _ k reads dl).
  Qed.
  Lemma feat_ver c : forall v reads dl r, fat_pos v reads dl -> eat (vprog v c) reads dl = Some r ->
    match vrun v c with None => None | Some v => vfinal v end = r.
  Proof.
    induction c as [|g c IH]; intros v reads dl r P E; cbn [fver_prog fv_run] in *.
    - unfold fv_end_prog in E. apply feat_batch in E; [|exact P]. unfold fv_final. destruct (vbatch v) as [v1|]; [|now symmetry].
      destruct E as (reads1 & dl1 & P1 & E). destruct (Nat.eqb (fv_ccnt v1) 0).
      + cbn [eat] in E. destruct reads1, dl1; try discriminate. now injection E.
      + destruct (feat_check _ _ _ _ _ P1 E) as (reads2 & dl2 & P2 & E2). cbn [eat] in E2. destruct reads2, dl2; try discriminate. now injection E2.
    - apply feat_gate in E; [|exact P]. destruct (vstep v g) as [v1|]; [|now symmetry].
      destruct E as (reads1 & dl1 & P1 & E1). now apply (IH v1 reads1 dl1).
  Qed.
End Ver.

(** * What the prover sees *)
(** programs that read and hash the same, and differ in their results and in whether they stop early *)
Inductive stwin {R : Type} : proc (option R) -> proc (option R) -> Prop :=
| SStop1 V : stwin (PDone None) V
| SStop2 V : stwin V (PDone None)
| SDone r r' : stwin (PDone (Some r)) (PDone (Some r'))
| SGetBit k k' : (forall b, stwin (k b) (k' b)) -> stwin (PGetBit k) (PGetBit k')
| SAlign d k k' : stwin k k' -> stwin (PAlign d k) (PAlign d k')
| SGet len k k' : (forall x, stwin (k x) (k' x)) -> stwin (PGet len k) (PGet len k')
| SFlush k k' : stwin k k' -> stwin (PFlush k) (PFlush k')
| SHash k k' : (forall h, stwin (k h) (k' h)) -> stwin (PHash k) (PHash k').
Section Twin.
  Variables (bs br reset : bool) (NB : nat).
  Context {RP RV : Type}.
  Notation nst := (@nstep bs br reset NB RP (option RV)).
  Notation nsts := (@nsteps bs br reset NB RP (option RV)).
  Definition same_but_v (n n' : @net RP (option RV)) : Prop :=
    n_p n' = n_p n /\ n_s n' = n_s n /\ n_r n' = n_r n /\ n_sr n' = n_sr n /\ n_rs n' = n_rs n.
  Lemma stwin_step (V V2 V' : proc (option RV)) r r' sr o sr' : stwin V V2 -> r_proc br reset NB V r sr = Some (V', r', o, sr') ->
    V2 = PDone None \/ exists V2', r_proc br reset NB V2 r sr = Some (V2', r', o, sr') /\ stwin V' V2'.
  Proof.
    intros T E. destruct T; cbn [r_proc] in *; try discriminate; auto; right.
    - destruct (recv_bit br NB r sr) as [[[b e] ch]|]; [|discriminate]. injection E as <- <- <- <-. eexists. split; [reflexivity|]. auto.
    - cbn [r_act] in *. destruct d.
      + destruct (Nat.eqb (e_ptr r) NB); injection E as <- <- <- <-; eexists; (split; [reflexivity|]); auto.
      + destruct (Nat.eqb (e_ptr r) 0); injection E as <- <- <- <-; eexists; (split; [reflexivity|]); auto.
    - destruct (raw_read r len sr) as [[e ch]|]; [|discriminate]. injection E as <- <- <- <-. eexists. split; [reflexivity|]. auto.
    - cbn [r_act] in *. injection E as <- <- <- <-. eexists. split; [reflexivity|]. auto.
    - cbn [r_act] in *. injection E as <- <- <- <-. eexists. split; [reflexivity|]. auto.
  Qed.
  Theorem stwin_run gs gr (P : proc RP) V V2 k n : stwin V V2 -> nsts k (n_init NB gs gr P V) n ->
    exists j n1 n2, j <= k /\ nsts j (n_init NB gs gr P V) n1 /\ nsts j (n_init NB gs gr P V2) n2 /\ same_but_v n1 n2 /\
      ((j = k /\ n1 = n /\ stwin (n_v n1) (n_v n2)) \/ n_v n1 = PDone None \/ n_v n2 = PDone None).
  Proof.
    intros T H. remember (n_init NB gs gr P V) as m eqn:Em. induction H as [m|k m n n' H IH Hs].
    - subst. exists 0. eexists. eexists. split; [lia|]. split; [constructor|]. split; [constructor|]. split; [repeat split|]. left. auto.
    - specialize (IH Em). destruct IH as (j & n1 & n2 & L & H1 & H2 & E & [(-> & -> & Tn)|X]).
      + destruct n2 as [P2 s2 V2' r2 sr2 rs2]. destruct E as (E1 & E2 & E3 & E4 & E5).
        destruct Hs as [P0 e V0 r sr rs P' e' o rs' Ha|P0 e V0 r sr rs V' r' o sr' Ha]; cbn [n_p n_s n_v n_r n_sr n_rs] in *; subst.
        * exists (S k). eexists. eexists. split; [lia|]. split; [econstructor; [exact H1|apply NS; exact Ha]|].
          split; [econstructor; [exact H2|apply NS; exact Ha]|]. split; [repeat split|]. left. auto.
        * destruct (stwin_step _ _ _ _ _ _ _ _ Tn Ha) as [->|(V3 & Ha' & T')].
          -- exists k. eexists. eexists. split; [lia|]. split; [exact H1|]. split; [exact H2|]. split; [repeat split|]. right. right. reflexivity.
          -- exists (S k). eexists. eexists. split; [lia|]. split; [econstructor; [exact H1|apply NR; exact Ha]|].
             split; [econstructor; [exact H2|apply NR; exact Ha']|]. split; [repeat split|]. left. auto.
      + exists j, n1, n2. split; [lia|]. auto.
  Qed.
End Twin.

Section VerTwin.
  Variables (threads bufsz polysz : nat) (junk : nat -> nat -> N) (G : list N -> nat -> N) (Gp : list N -> N).
  Hypothesis Hb : 1 <= bufsz.
  Definition valike (v v' : fvst) : Prop := fv_ccnt v = fv_ccnt v' /\ length (fv_poly v) = length (fv_poly v').
  Lemma get_bits_stwin {R} n : forall (k k' : list bool -> proc (option R)), (forall l, stwin (k l) (k' l)) -> stwin (get_bits n k) (get_bits n k').
  Proof. induction n as [|n IH]; intros k k' K; [apply K|]. cbn [get_bits]. constructor. intro b. apply IH. intro l. apply K. Qed.
  Variables (extk extk' : nat -> N) (voleK voleK' : nat -> nat -> N) (bK bK' oK oK' : nat -> N) (delta delta' : N).
  Notation cont := (fvst -> proc (option fvst)).
  Definition kalike (k k' : cont) : Prop := forall v v', valike v v' -> stwin (k v) (k' v').
  Lemma st_check v v' (k k' : cont) : valike v v' -> kalike k k' -> stwin (fv_check_prog oK delta threads junk G v k) (fv_check_prog oK' delta' threads junk G v' k').
  Proof. intros A K. unfold fv_check_prog. constructor. constructor. intro h. constructor. constructor. intro x. constructor. apply K. exact A. Qed.
  Lemma st_batch v v' (k k' : cont) : valike v v' -> kalike k k' -> stwin (fv_batch_prog delta Gp v k) (fv_batch_prog delta' Gp v' k').
  Proof.
    intros A K. pose proof A as [A1 A2]. unfold fv_batch_prog. rewrite <- A2. destruct (Nat.eqb_spec (length (fv_poly v)) 0) as [Z|Z]; [now apply K|].
    constructor. constructor. intro h. constructor. constructor. intro x. unfold fv_batch. rewrite <- A2, (proj2 (Nat.eqb_neq _ _) Z).
    destruct (ver_poly_accept delta _ _ _), (ver_poly_accept delta' _ _ _); try constructor. apply K. split; [exact A1|reflexivity].
  Qed.
  Lemma st_mul v v' a b a' b' (k k' : cont) : valike v v' -> kalike k k' ->
    stwin (fv_mul_prog voleK oK delta threads bufsz junk G v a b k) (fv_mul_prog voleK' oK' delta' threads bufsz junk G v' a' b' k').
  Proof.
    intros A K.
    assert (GO : forall v v', valike v v' -> Nat.eqb (fv_ccnt v) bufsz = false ->
      stwin (PAlign true (PGet 16 (fun x => k (fv_mul voleK oK delta threads bufsz (fun _ _ => 0%N) junk (fun _ => dec_bytes x) (fun _ => (0, 0)%N) v a b))))
            (PAlign true (PGet 16 (fun x => k' (fv_mul voleK' oK' delta' threads bufsz (fun _ _ => 0%N) junk (fun _ => dec_bytes x) (fun _ => (0, 0)%N) v' a' b'))))).
    { clear v v' A. intros v v' [A1 A2] Hc. constructor. constructor. intro x. apply K. unfold fv_mul, fv_pre. rewrite <- A1, Hc.
      destruct (Nat.eqb (fv_acnt v) bufsz), (Nat.eqb (fv_acnt v') bufsz); split; cbn; auto. }
    unfold fv_mul_prog. destruct A as [A1 A2]. rewrite <- A1. destruct (Nat.eqb (fv_ccnt v) bufsz) eqn:Ec; [|apply GO; [split; assumption|exact Ec]].
    apply st_check; [split; assumption|]. intros w w' [B1 B2]. apply GO; [split; auto|]. cbn [fv_clear fv_ccnt]. apply Nat.eqb_neq. lia.
  Qed.
  Lemma st_chain v v' row row' (k k' : cont) : valike v v' -> kalike k k' ->
    stwin (fv_chain_prog bK delta polysz Gp v row k) (fv_chain_prog bK' delta' polysz Gp v' row' k').
  Proof.
    intros A K. unfold fv_chain_prog. apply get_bits_stwin. intro l.
    assert (GO : kalike (fun s => match fv_chain bK delta polysz (fun _ => 0%N) (fun j => nth (j - fv_bits s) l false) (fun _ => (0, 0, 0, 0, 0)%N) s row with
                                  | None => PDone None | Some s' => k s' end)
                        (fun s => match fv_chain bK' delta' polysz (fun _ => 0%N) (fun j => nth (j - fv_bits s) l false) (fun _ => (0, 0, 0, 0, 0)%N) s row' with
                                  | None => PDone None | Some s' => k' s' end)).
    { intros w w' [B1 B2].
      destruct (fv_chain bK delta _ _ _ _ w _) as [x|] eqn:E1; [|constructor]. destruct (fv_chain bK' delta' _ _ _ _ w' _) as [x'|] eqn:E2; [|constructor].
      apply K. unfold fv_chain in E1, E2. rewrite <- B2 in E2. destruct (Nat.leb polysz (length (fv_poly w))).
      - unfold fv_batch in E1, E2. rewrite <- B2 in E2. destruct (Nat.eqb (length (fv_poly w)) 0).
        + injection E1 as <-. injection E2 as <-. split; cbn; rewrite ?app_length; cbn; congruence.
        + destruct (ver_poly_accept _ _ _ _); [|discriminate]. destruct (ver_poly_accept _ _ _ _); [|discriminate].
          injection E1 as <-. injection E2 as <-. split; cbn; auto.
      - injection E1 as <-. injection E2 as <-. split; cbn; rewrite ?app_length; cbn; congruence. }
    cbv zeta. destruct A as [A1 A2]. rewrite <- A2. destruct (Nat.leb polysz (length (fv_poly v))); [apply st_batch; [split; assumption|exact GO]|]. apply GO. split; assumption.
  Qed.
  Lemma fver_stwin c : forall v v', valike v v' ->
    stwin (fver_prog extk voleK bK oK delta threads bufsz polysz junk G Gp v c) (fver_prog extk' voleK' bK' oK' delta' threads bufsz polysz junk G Gp v' c).
  Proof.
    induction c as [|g c IH]; intros v v' A; cbn [fver_prog].
    - unfold fv_end_prog. apply st_batch; [exact A|]. intros w w' [B1 B2]. rewrite <- B1. destruct (Nat.eqb (fv_ccnt w) 0).
      + constructor. constructor.
      + apply st_check; [split; assumption|]. intros x x' _. constructor. constructor.
    - assert (K : kalike (fun s => fver_prog extk voleK bK oK delta threads bufsz polysz junk G Gp s c)
                         (fun s => fver_prog extk' voleK' bK' oK' delta' threads bufsz polysz junk G Gp s c)) by (intros w w' B; now apply IH).
      destruct g; cbn [fv_gate_prog]; try (now apply st_chain); try (now apply st_mul); apply K; exact A.
  Qed.
End VerTwin.
(** the verifier's program only reads *)
Section Silent.
  Variables (extk : nat -> N) (voleK : nat -> nat -> N) (bK oK : nat -> N) (delta : N).
  Variables (threads bufsz polysz : nat) (junk : nat -> nat -> N) (G : list N -> nat -> N) (Gp : list N -> N).
  Notation cont := (fvst -> proc (option fvst)).
  Lemma get_bits_twin {R} n : forall (k : list bool -> proc R), (forall l, twin (k l) (k l)) -> twin (get_bits n k) (get_bits n k).
  Proof. induction n as [|n IH]; intros k K; [apply K|]. cbn [get_bits]. constructor. intro b. apply IH. intro l. apply K. Qed.
  Lemma si_check v (k : cont) : (forall v, twin (k v) (k v)) -> twin (fv_check_prog oK delta threads junk G v k) (fv_check_prog oK delta threads junk G v k).
  Proof. intro K. unfold fv_check_prog. repeat (constructor; try intro). apply K. Qed.
  Lemma si_batch v (k : cont) : (forall v, twin (k v) (k v)) -> twin (fv_batch_prog delta Gp v k) (fv_batch_prog delta Gp v k).
  Proof.
    intro K. unfold fv_batch_prog. destruct (Nat.eqb (length (fv_poly v)) 0); [apply K|]. constructor. constructor. intro h. constructor. constructor. intro x.
    destruct (fv_batch _ _ _ _); [apply K|constructor].
  Qed.
  Lemma fver_silent c : forall v, twin (fver_prog extk voleK bK oK delta threads bufsz polysz junk G Gp v c) (fver_prog extk voleK bK oK delta threads bufsz polysz junk G Gp v c).
  Proof.
    induction c as [|g c IH]; intro v; cbn [fver_prog].
    - unfold fv_end_prog. apply si_batch. intro w. destruct (Nat.eqb (fv_ccnt w) 0); [repeat constructor|]. apply si_check. intro. repeat constructor.
    - assert (CH : forall row, let k := fun s => fver_prog extk voleK bK oK delta threads bufsz polysz junk G Gp s c in
        twin (fv_chain_prog bK delta polysz Gp v row k) (fv_chain_prog bK delta polysz Gp v row k)).
      { intros row k. unfold fv_chain_prog. apply get_bits_twin. intro l. cbv zeta.
        assert (GO : forall s, let p := match fv_chain bK delta polysz (fun _ => 0%N) (fun j => nth (j - fv_bits s) l false) (fun _ => (0, 0, 0, 0, 0)%N) s row with
                              | None => PDone None | Some s' => k s' end in twin p p).
        { intro s. cbv zeta. destruct (fv_chain _ _ _ _ _ _ _ _); [apply IH|constructor]. }
        destruct (Nat.leb _ _); [apply si_batch; exact GO|apply GO]. }
      destruct g; cbn [fv_gate_prog]; try apply CH; try apply IH.
      unfold fv_mul_prog. destruct (Nat.eqb (fv_ccnt v) bufsz); [apply si_check; intro w|]; constructor; constructor; intro x; apply IH.
  Qed.
End Silent.
