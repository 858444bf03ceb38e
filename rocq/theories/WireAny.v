(** The verifier's program against an arbitrary prover program. *)
From Coq Require Import NArith List Bool Arith Lia.
From Verif Require Import Word BoolModel BoolSpec BoolIOModel BoolIOSpec WireModel WireProofs.
Import ListNotations.

(** what a receiving endpoint has read *)
Fixpoint read_bits (l : list rd) : list bool :=
  match l with [] => [] | RdBit b :: l' => b :: read_bits l' | RdData _ :: l' => read_bits l' end.
Fixpoint read_data (l : list rd) : list (list N) :=
  match l with [] => [] | RdBit _ :: l' => read_data l' | RdData x :: l' => x :: read_data l' end.

(** a receiving program fed with a list of reads and a list of hash values *)
Fixpoint eat {R : Type} (V : proc R) (reads : list rd) (dg : list (list N)) : option R :=
  match V with
  | PDone r => match reads, dg with [], [] => Some r | _, _ => None end
  | PBit _ _ => None
  | PGetBit k => match reads with RdBit b :: rs => eat (k b) rs dg | _ => None end
  | PAlign _ k => eat k reads dg
  | PPut _ k => eat k reads dg
  | PGet len k => match reads with RdData x :: rs => if Nat.eqb (length x) len then eat (k x) rs dg else None | _ => None end
  | PFlush k => eat k reads dg
  | PHash k => match dg with h :: dg' => eat (k h) reads dg' | [] => None end
  end.

(** two programs that perform the same actions whatever they read, and differ only in their results *)
Inductive twin {R : Type} : proc R -> proc R -> Prop :=
| TDone r r' : twin (PDone r) (PDone r')
| TGetBit k k' : (forall b, twin (k b) (k' b)) -> twin (PGetBit k) (PGetBit k')
| TAlign d k k' : twin k k' -> twin (PAlign d k) (PAlign d k')
| TGet len k k' : (forall x, twin (k x) (k' x)) -> twin (PGet len k) (PGet len k')
| TFlush k k' : twin k k' -> twin (PFlush k) (PFlush k')
| THash k k' : (forall h, twin (k h) (k' h)) -> twin (PHash k) (PHash k').

Section Any.
  Variables (bs br reset : bool) (NB : nat).
  Context {RP RV : Type}.
  Notation nst := (@nstep bs br reset NB RP RV).
  Notation nsts := (@nsteps bs br reset NB RP RV).

  Lemma recv_bit_log e ch b e' ch' : recv_bit br NB e ch = Some (b, e', ch') -> e_reads e' = e_reads e ++ [RdBit b] /\ e_digests e' = e_digests e.
  Proof.
    unfold recv_bit. destruct (Nat.eqb (e_ptr e) NB).
    - destruct (recv_bool_raw br NB ch) as [[[bits h] c]|]; [|discriminate]. intro X. injection X as <- <- _. split; reflexivity.
    - intro X. injection X as <- <- _. split; reflexivity.
  Qed.
  Lemma eat_step (V V' : proc RV) r r' sr o sr' reads dg : r_proc br reset NB V r sr = Some (V', r', o, sr') ->
    exists rs hs, e_reads r' = e_reads r ++ rs /\ e_digests r' = e_digests r ++ hs /\ eat V (rs ++ reads) (hs ++ dg) = eat V' reads dg.
  Proof.
    intro E. destruct V as [x|b k|k|d k|x k|len k|k|k]; cbn [r_proc] in E; try discriminate.
    - destruct (recv_bit br NB r sr) as [[[b e] ch]|] eqn:Eb; [|discriminate]. injection E as <- <- <- <-.
      apply recv_bit_log in Eb. destruct Eb as [E1 E2]. exists [RdBit b], []. rewrite app_nil_r. repeat split; assumption.
    - exists [], []. rewrite !app_nil_r. cbn [r_act] in E. destruct d.
      + destruct (Nat.eqb (e_ptr r) NB); injection E as <- <- _ _; auto.
      + destruct (Nat.eqb (e_ptr r) 0); injection E as <- <- _ _; auto.
    - exists [], []. rewrite !app_nil_r. cbn [r_act] in E. injection E as <- <- _ _. auto.
    - unfold raw_read in E. destruct (Nat.ltb_spec (length sr) len) as [L|L]; [discriminate|]. injection E as <- <- _ _.
      exists [RdData (firstn len sr)], []. rewrite app_nil_r. split; [reflexivity|]. split; [reflexivity|].
      cbn [app eat]. rewrite firstn_length, Nat.min_l, Nat.eqb_refl by lia. reflexivity.
    - exists [], []. rewrite !app_nil_r. cbn [r_act] in E. injection E as <- <- _ _. auto.
    - exists [], [e_hash r]. rewrite app_nil_r. cbn [r_act] in E. injection E as <- <- _ _. auto.
  Qed.
  Lemma eat_steps gs gr (P : proc RP) V k n : nsts k (n_init NB gs gr P V) n -> forall reads dg,
    eat V (e_reads (n_r n) ++ reads) (e_digests (n_r n) ++ dg) = eat (n_v n) reads dg.
  Proof.
    intro H. remember (n_init NB gs gr P V) as m eqn:Em. induction H as [m|k m n n' H IH Hs]; intros reads dg.
    - subst. reflexivity.
    - specialize (IH Em). destruct Hs as [P0 e V0 r sr rs P' e' o rs' Ha|P0 e V0 r sr rs V' r' o sr' Ha]; cbn [n_r n_v] in *.
      + apply IH.
      + destruct (eat_step _ _ _ _ _ _ _ reads dg Ha) as (x & y & -> & -> & E). rewrite <- !app_assoc, IH. exact E.
  Qed.
  Theorem eat_done gs gr (P : proc RP) V k n r : nsts k (n_init NB gs gr P V) n -> n_v n = PDone r ->
    eat V (e_reads (n_r n)) (e_digests (n_r n)) = Some r.
  Proof.
    intros H E. pose proof (eat_steps gs gr P V k n H [] []) as X. rewrite !app_nil_r, E in X. exact X.
  Qed.

  Definition ntwin (n n' : @net RP RV) : Prop :=
    n_p n' = n_p n /\ n_s n' = n_s n /\ n_r n' = n_r n /\ n_sr n' = n_sr n /\ n_rs n' = n_rs n /\ @twin RV (n_v n) (n_v n').
  Lemma twin_step (V V2 V' : proc RV) r r' sr o sr' : twin V V2 -> r_proc br reset NB V r sr = Some (V', r', o, sr') ->
    o = [] /\ exists V2', r_proc br reset NB V2 r sr = Some (V2', r', o, sr') /\ twin V' V2'.
  Proof.
    intros T E. destruct T; cbn [r_proc] in *; try discriminate.
    - destruct (recv_bit br NB r sr) as [[[b e] ch]|]; [|discriminate]. injection E as <- <- <- <-. split; [reflexivity|]. eexists. split; [reflexivity|]. auto.
    - cbn [r_act] in *. destruct d.
      + destruct (Nat.eqb (e_ptr r) NB); injection E as <- <- <- <-; (split; [reflexivity|]); eexists; (split; [reflexivity|]); auto.
      + destruct (Nat.eqb (e_ptr r) 0); injection E as <- <- <- <-; (split; [reflexivity|]); eexists; (split; [reflexivity|]); auto.
    - destruct (raw_read r len sr) as [[e ch]|]; [|discriminate]. injection E as <- <- <- <-. split; [reflexivity|]. eexists. split; [reflexivity|]. auto.
    - cbn [r_act] in *. injection E as <- <- <- <-. split; [reflexivity|]. eexists. split; [reflexivity|]. auto.
    - cbn [r_act] in *. injection E as <- <- <- <-. split; [reflexivity|]. eexists. split; [reflexivity|]. auto.
  Qed.
  (** nothing is ever sent to the prover, and every run is also a run of the twin *)
  Theorem twin_run gs gr (P : proc RP) V V2 k n : twin V V2 -> nsts k (n_init NB gs gr P V) n ->
    n_rs n = [] /\ exists n', nsts k (n_init NB gs gr P V2) n' /\ ntwin n n'.
  Proof.
    intros T H. remember (n_init NB gs gr P V) as m eqn:Em. induction H as [m|k m n n' H IH Hs].
    - subst. split; [reflexivity|]. eexists. split; [constructor|]. repeat (split; [reflexivity|]). exact T.
    - specialize (IH Em). destruct IH as (Z & n2 & H2 & (E1 & E2 & E3 & E4 & E5 & Tn)).
      destruct n2 as [P2 s2 V2' r2 sr2 rs2].
      destruct Hs as [P0 e V0 r sr rs P' e' o rs' Ha|P0 e V0 r sr rs V' r' o sr' Ha]; cbn [n_p n_s n_v n_r n_sr n_rs] in *; subst.
      + split.
        * destruct P0; cbn [s_proc] in Ha; try discriminate.
          -- destruct (s_act bs reset NB e (ABit b) []) as [[[x1 x2] x3]|] eqn:Ea; [|discriminate]. injection Ha as _ _ _ <-.
             cbn [s_act] in Ea. destruct (send_bit bs NB e b). now injection Ea as _ _ <-.
          -- destruct (s_act bs reset NB e (AAlign fromS) []) as [[[x1 x2] x3]|] eqn:Ea; [|discriminate]. injection Ha as _ _ _ <-.
             destruct fromS; cbn [s_act] in Ea.
             ++ destruct (Nat.eqb (e_ptr e) 0); [|destruct (flush_s bs NB e)]; now injection Ea as _ _ <-.
             ++ destruct (Nat.eqb (e_ptr e) NB); [|destruct (flush_s bs NB e)]; now injection Ea as _ _ <-.
          -- now injection Ha as _ _ _ <-.
          -- unfold raw_read in Ha. destruct (Nat.ltb_spec (length (@nil N)) len) as [L|L]; [discriminate|]. cbn in L.
             injection Ha as _ _ _ <-. now destruct len.
          -- destruct (s_act bs reset NB e AFlush []) as [[[x1 x2] x3]|] eqn:Ea; [|discriminate]. injection Ha as _ _ _ <-.
             cbn [s_act] in Ea. destruct (flush_s bs NB e). now injection Ea as _ _ <-.
          -- now injection Ha as _ _ _ <-.
        * eexists. split; [econstructor; [exact H2|apply NS; exact Ha]|]. repeat (split; [reflexivity|]). exact Tn.
      + destruct (twin_step _ _ _ _ _ _ _ _ Tn Ha) as (-> & V3 & Ha' & T'). split; [reflexivity|].
        eexists. split; [econstructor; [exact H2|apply NR; exact Ha']|]. repeat (split; [reflexivity|]). exact T'.
  Qed.
End Any.

(** * The verifier's program *)
Section Ver.
  Variables (r0 r1 : N) (threads csz : nat) (G : list N -> nat -> N) (H : list N -> list N).
  Hypothesis Hcsz : 1 <= csz.
  (** its actions do not depend on the keys *)
  Definition vlike (v v' : vst) : Prop := length (v_buf v) = length (v_buf v').
  Lemma ver_twin vK vK' d d' c : forall v v', vlike v v' ->
    twin (ver_prog r0 r1 vK d threads csz G H v c) (ver_prog r0 r1 vK' d' threads csz G H v' c).
  Proof.
    assert (FIN : forall v v', twin (ver_fin H v) (ver_fin H v')) by (intros; unfold ver_fin; repeat constructor).
    assert (CHK : forall v v' (k k' : vst -> proc (option (vst * bool))), vlike v v' -> (forall x x', vlike x x' -> twin (k x) (k' x')) ->
      twin (ver_check_prog vK d threads G v k) (ver_check_prog vK' d' threads G v' k')).
    { intros v v' k k' L K. unfold ver_check_prog. constructor. constructor. intro h. rewrite <- L.
      destruct (and_ranges threads (length (v_buf v))) eqn:Er; [|constructor]. constructor. constructor. intro x.
      unfold ver_manage. rewrite <- L, Er. constructor. apply K. exact L. }
    assert (GATE : forall v v' g (k k' : vst -> proc (option (vst * bool))), full csz g (length (v_buf v)) = false -> vlike v v' -> (forall x x', vlike x x' -> twin (k x) (k' x')) ->
      twin (ver_gate r0 r1 vK d threads csz v g k) (ver_gate r0 r1 vK' d' threads csz v' g k')).
    { intros v v' g k k' Hf L K. unfold ver_gate. unfold vlike in *.
      destruct g; cbn [sends full] in *; try (constructor; intro); cbn [ver_step]; unfold ver_precheck; rewrite <- ?L, ?Hf; apply K; cbn [v_add v_buf];
      rewrite ?app_length; cbn; congruence. }
    induction c as [|g c IH]; intros v v' L; cbn [ver_prog].
    - unfold vlike in L. destruct (v_buf v) eqn:E1, (v_buf v') eqn:E2; try discriminate; [apply FIN|]. apply CHK; [|auto]. unfold vlike. now rewrite E1, E2.
    - unfold vlike in L. rewrite <- L. destruct (full csz g (length (v_buf v))) eqn:Ef; [|now apply GATE].
      apply CHK; [exact L|]. intros x x' Lx. apply GATE; auto; [now apply vclear_not_full|reflexivity].
  Qed.

  (** its result is that of the session whose messages are the ones it has read *)
  Variables (vK : nat -> N) (d : N) (bits : list bool) (datas : list (list N)) (dg : list (list N)).
  Notation seeds := (fun k : nat => G (nth k dg [])).
  Notation bitmsg := (fun i => nth i bits false).
  Notation chkmsg := (fun k => dec2 (nth k datas [])).
  Notation vstep := (ver_step r0 r1 vK d threads csz seeds bitmsg chkmsg).
  Notation vmanage := (ver_manage vK d threads seeds chkmsg).
  Notation vprog := (ver_prog r0 r1 vK d threads csz G H).
  Definition at_pos (v : vst) (reads : list rd) (dl : list (list N)) : Prop :=
    skipn (v_bits v) bits = read_bits reads /\ skipn (v_chk v) datas = read_data reads /\ skipn (v_chk v) dg = dl.
  Lemma skipn_cons {A} n (l : list A) x t (z : A) : skipn n l = x :: t -> nth n l z = x /\ skipn (S n) l = t.
  Proof.
    revert l. induction n as [|n IH]; intros l E; [now rewrite (eq_refl : skipn 0 l = l) in E; subst|].
    destruct l as [|y l]; [discriminate|]. cbn [skipn nth] in *. now apply IH.
  Qed.
  Lemma eat_check {R : Type} v (k : vst -> proc (option R)) reads dl r : at_pos v reads dl -> eat (ver_check_prog vK d threads G v k) reads dl = Some (Some r) ->
    exists v1 reads' dl', vmanage v = Some v1 /\ at_pos v1 reads' dl' /\ eat (k v1) reads' dl' = Some (Some r).
  Proof.
    intros (P1 & P2 & P3) E. unfold ver_check_prog in E. cbn [eat] in E. destruct dl as [|h dl]; [discriminate|].
    destruct (and_ranges threads (length (v_buf v))) as [rs|] eqn:Er; [|cbn [eat] in E; destruct reads, dl; discriminate].
    cbn [eat] in E. destruct reads as [|[b|x] reads]; try discriminate. destruct (Nat.eqb (length x) 32); [|discriminate].
    unfold ver_manage in E at 1. rewrite Er in E. cbn [eat] in E. cbn [read_data read_bits] in P1, P2.
    destruct (skipn_cons _ _ _ _ [] P2) as [N2 Q2]. destruct (skipn_cons _ _ _ _ [] P3) as [N3 Q3].
    unfold ver_manage. rewrite Er, N2, N3. eexists. exists reads, dl. split; [reflexivity|]. split; [|exact E].
    split; [exact P1|]. split; assumption.
  Qed.
  Lemma eat_gate {R : Type} v g (k : vst -> proc (option R)) reads dl r : full csz g (length (v_buf v)) = false -> at_pos v reads dl ->
    eat (ver_gate r0 r1 vK d threads csz v g k) reads dl = Some (Some r) ->
    exists v1 reads' dl', vstep v g = Some v1 /\ at_pos v1 reads' dl' /\ eat (k v1) reads' dl' = Some (Some r).
  Proof.
    intros Hf (P1 & P2 & P3) E. unfold ver_gate in E. destruct (sends g) eqn:Eg.
    - cbn [eat] in E. destruct reads as [|[b|x] reads]; try discriminate. cbn [read_data read_bits] in P1, P2.
      destruct (skipn_cons _ _ _ _ false P1) as [N1 Q1].
      destruct g; try discriminate; cbn [ver_step full] in *; unfold ver_precheck in *; rewrite ?Hf in *; rewrite N1;
      eexists; exists reads, dl; (split; [reflexivity|]); (split; [|exact E]); (split; [exact Q1|]); split; assumption.
    - destruct g; try discriminate; cbn [ver_step] in *;
      eexists; exists reads, dl; (split; [reflexivity|]); (split; [|exact E]); (split; [exact P1|]); split; assumption.
  Qed.
  Lemma eat_ver c : forall v reads dl vf b, at_pos v reads dl -> eat (vprog v c) reads dl = Some (Some (vf, b)) ->
    match ver_run r0 r1 vK d threads csz seeds bitmsg chkmsg v c with None => None | Some v => ver_final vK d threads seeds chkmsg v end = Some vf /\
    b = ver_finalize same_bytes H vf (last datas []).
  Proof.
    assert (FIN : forall v reads dl vf b, at_pos v reads dl -> eat (ver_fin H v) reads dl = Some (Some (vf, b)) ->
      vf = v /\ b = ver_finalize same_bytes H vf (last datas [])).
    { intros v reads dl vf b (P1 & P2 & P3) E. unfold ver_fin in E. cbn [eat] in E. destruct reads as [|[?|x] reads]; try discriminate.
      destruct (Nat.eqb (length x) 32); [|discriminate]. cbn [eat] in E. destruct reads; [|discriminate]. destruct dl; [|discriminate].
      assert (X : vf = v /\ b = ver_finalize same_bytes H v x) by (split; congruence). destruct X as [-> ->].
      cbn [read_data] in P2. split; [reflexivity|].
      rewrite <- (firstn_skipn (v_chk v) datas), P2, last_last. reflexivity. }
    induction c as [|g c IH]; intros v reads dl vf b P E; cbn [ver_prog ver_run] in *.
    - unfold ver_final. destruct (v_buf v) eqn:Eb.
      + destruct (FIN _ _ _ _ _ P E) as [-> ->]. auto.
      + destruct (eat_check v _ reads dl _ P E) as (v1 & reads' & dl' & Em & P' & E'). rewrite Em.
        destruct (FIN _ _ _ _ _ P' E') as [-> ->]. auto.
    - destruct (full csz g (length (v_buf v))) eqn:Ef.
      + destruct (eat_check v _ reads dl _ P E) as (v1 & reads' & dl' & Em & P' & E').
        assert (X : vstep v g = vstep (v_clear v1) g).
        { destruct g; try discriminate. cbn [full] in Ef. cbn [ver_step]. unfold ver_precheck. rewrite Ef, Em. cbn [v_clear v_buf length].
          destruct (Nat.eqb_spec 0 csz); [lia|reflexivity]. }
        rewrite X.
        destruct (eat_gate (v_clear v1) g _ reads' dl' _ (vclear_not_full csz v1 g Hcsz) P' E') as (v2 & r2 & d2 & -> & P2 & E2). now apply (IH v2 r2 d2).
      + destruct (eat_gate v g _ reads dl _ Ef P E) as (v2 & r2 & d2 & -> & P2 & E2). now apply (IH v2 r2 d2).
  Qed.
End Ver.
