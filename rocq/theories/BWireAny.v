(** The verifier's program of a mixed boolean session against an arbitrary prover program. *)
From Coq Require Import NArith List Bool Arith Lia.
From Verif Require Import Word BoolModel BoolSpec BoolIOModel BoolIOSpec BoolPolyModel BoolPolySpec BSessModel BSessSpec WireModel WireProofs WireAny BWireModel BWireSpec.
Import ListNotations.

(** two programs that perform the same actions, send the same bytes, and differ only in their results *)
Inductive btwin {R : Type} : proc R -> proc R -> Prop :=
| BTDone r r' : btwin (PDone r) (PDone r')
| BTGetBit k k' : (forall b, btwin (k b) (k' b)) -> btwin (PGetBit k) (PGetBit k')
| BTAlign d k k' : btwin k k' -> btwin (PAlign d k) (PAlign d k')
| BTPut x k k' : btwin k k' -> btwin (PPut x k) (PPut x k')
| BTGet len k k' : (forall x, btwin (k x) (k' x)) -> btwin (PGet len k) (PGet len k')
| BTFlush k k' : btwin k k' -> btwin (PFlush k) (PFlush k')
| BTHash k k' : (forall h, btwin (k h) (k' h)) -> btwin (PHash k) (PHash k').

Section Any.
  Variables (bs br reset : bool) (NB : nat).
  Context {RP RV : Type}.
  Lemma btwin_step (V V2 V' : proc RV) r r' sr o sr' : btwin V V2 -> r_proc br reset NB V r sr = Some (V', r', o, sr') ->
    exists V2', r_proc br reset NB V2 r sr = Some (V2', r', o, sr') /\ btwin V' V2'.
  Proof.
    intros T E. destruct T; cbn [r_proc] in *; try discriminate.
    - destruct (recv_bit br NB r sr) as [[[b e] ch]|]; [|discriminate]. injection E as <- <- <- <-. eexists. split; [reflexivity|]. auto.
    - cbn [r_act] in *. destruct d.
      + destruct (Nat.eqb (e_ptr r) NB); injection E as <- <- <- <-; eexists; (split; [reflexivity|]); auto.
      + destruct (Nat.eqb (e_ptr r) 0); injection E as <- <- <- <-; eexists; (split; [reflexivity|]); auto.
    - cbn [r_act] in *. injection E as <- <- <- <-. eexists. split; [reflexivity|]. auto.
    - destruct (raw_read r len sr) as [[e ch]|]; [|discriminate]. injection E as <- <- <- <-. eexists. split; [reflexivity|]. auto.
    - cbn [r_act] in *. injection E as <- <- <- <-. eexists. split; [reflexivity|]. auto.
    - cbn [r_act] in *. injection E as <- <- <- <-. eexists. split; [reflexivity|]. auto.
  Qed.
  Theorem btwin_run gs gr (P : proc RP) V V2 k n : @btwin RV V V2 -> @nsteps bs br reset NB RP RV k (n_init NB gs gr P V) n ->
    exists n', @nsteps bs br reset NB RP RV k (n_init NB gs gr P V2) n' /\
      n_p n' = n_p n /\ n_s n' = n_s n /\ n_r n' = n_r n /\ n_sr n' = n_sr n /\ n_rs n' = n_rs n /\ btwin (n_v n) (n_v n').
  Proof.
    intros T H. remember (n_init NB gs gr P V) as m eqn:Em. induction H as [m|k m n n' H IH Hs].
    - subst. eexists. split; [constructor|]. repeat (split; [reflexivity|]). exact T.
    - specialize (IH Em). destruct IH as (n2 & H2 & E1 & E2 & E3 & E4 & E5 & Tn).
      destruct n2 as [P2 s2 V2' r2 sr2 rs2].
      destruct Hs as [P0 e V0 r sr rs P' e' o rs' Ha|P0 e V0 r sr rs V' r' o sr' Ha]; cbn [n_p n_s n_v n_r n_sr n_rs] in *; subst.
      + eexists. split; [econstructor; [exact H2|apply NS; exact Ha]|]. repeat (split; [reflexivity|]). exact Tn.
      + destruct (btwin_step _ _ _ _ _ _ _ _ Tn Ha) as (V3 & Ha' & T').
        eexists. split; [econstructor; [exact H2|apply NR; exact Ha']|]. repeat (split; [reflexivity|]). exact T'.
  Qed.
End Any.

Section Ver.
  Variables (r0 r1 : N) (threads csz psz : nat) (rseeds : nat -> N) (G : list N -> nat -> N) (H : list N -> list N).
  Hypothesis Hcsz : 1 <= csz.
  (** its actions do not depend on the keys *)
  Definition qlike (q q' : pvst) : Prop := length (pv_buf q) = length (pv_buf q') /\ pv_chk q = pv_chk q'.
  Definition blike (v v' : bver) : Prop := vlike (bv_gates v) (bv_gates v') /\ qlike (bv_poly v) (bv_poly v').
  Lemma nrel_items d (f : nat -> N) c : length (ver_items d (bcall_map f c)) = nrel c.
  Proof. destruct c; cbn [bcall_map ver_items nrel]; rewrite ?map_length, ?seq_length; reflexivity. Qed.
  Notation RV := (bver * bool)%type.
  Lemma rel_twin d d' opek opek' q q' (k k' : pvst -> proc (option RV)) : qlike q q' -> (forall x x', qlike x x' -> btwin (k x) (k' x')) ->
    btwin (vrel_check d opek rseeds q k) (vrel_check d' opek' rseeds q' k').
  Proof.
    intros [L C] K. unfold vrel_check. rewrite C. pose proof L as L'. revert L'.
    destruct (pv_buf q) eqn:E1, (pv_buf q') eqn:E2; try discriminate; intros _.
    - apply K. split; [now rewrite E1, E2|exact C].
    - do 3 constructor. constructor. intro x. apply K. unfold pv_batch_check. rewrite E1, E2. split; [reflexivity|]. cbn. congruence.
  Qed.
  Lemma items_twin d d' opek opek' (k k' : pvst -> proc (option RV)) its : forall its' q q', length its = length its' -> qlike q q' -> (forall x x', qlike x x' -> btwin (k x) (k' x')) ->
    btwin (vrel_items d psz opek rseeds its q k) (vrel_items d' psz opek' rseeds its' q' k').
  Proof.
    induction its as [|i r IH]; intros [|j r'] q q' Hl Q K; try discriminate; cbn [vrel_items]; [now apply K|].
    injection Hl as Hl. pose proof Q as [L C]. rewrite <- L.
    assert (PU : forall x x', qlike x x' -> qlike (pv_push x i) (pv_push x' j)).
    { intros x x' [A B]. split; cbn; [rewrite !app_length; cbn; lia|exact B]. }
    destruct (Nat.leb psz (length (pv_buf q))).
    - apply rel_twin; [exact Q|]. intros x x' X. apply IH; auto.
    - apply IH; auto.
  Qed.
  Lemma bver_twin vK vK' d d' opek opek' prog : forall v v', blike v v' ->
    btwin (bver_prog r0 r1 vK d threads csz psz opek rseeds G H v prog) (bver_prog r0 r1 vK' d' threads csz psz opek' rseeds G H v' prog).
  Proof.
    assert (FIN : forall v v', btwin (bver_fin H v) (bver_fin H v')) by (intros; unfold bver_fin; repeat constructor).
    assert (CHK : forall v v' (k k' : vst -> proc (option RV)), vlike v v' -> (forall x x', vlike x x' -> btwin (k x) (k' x')) ->
      btwin (ver_check_prog vK d threads G v k) (ver_check_prog vK' d' threads G v' k')).
    { intros v v' k k' L K. unfold ver_check_prog. constructor. constructor. intro h. rewrite <- L.
      destruct (and_ranges threads (length (v_buf v))) eqn:Er; [|constructor]. constructor. constructor. intro x.
      unfold ver_manage. rewrite <- L, Er. constructor. apply K. exact L. }
    assert (GATE : forall v v' g (k k' : vst -> proc (option RV)), full csz g (length (v_buf v)) = false -> vlike v v' -> (forall x x', vlike x x' -> btwin (k x) (k' x')) ->
      btwin (ver_gate r0 r1 vK d threads csz v g k) (ver_gate r0 r1 vK' d' threads csz v' g k')).
    { intros v v' g k k' Hf L K. unfold ver_gate. unfold vlike in *.
      destruct g; cbn [sends full] in *; try (constructor; intro); cbn [ver_step]; unfold ver_precheck; rewrite <- ?L, ?Hf; apply K; cbn [v_add v_buf];
      rewrite ?app_length; cbn; congruence. }
    induction prog as [|[g|c] prog IH]; intros v v' [L Q]; cbn [bver_prog].
    - apply rel_twin; [exact Q|]. intros x x' _. unfold vlike in L. destruct (v_buf (bv_gates v)) eqn:E1, (v_buf (bv_gates v')) eqn:E2; try discriminate; [apply FIN|].
      apply CHK; [|intros; apply FIN]. unfold vlike. now rewrite E1, E2.
    - unfold vlike in L. rewrite <- L. destruct (full csz g (length (v_buf (bv_gates v)))) eqn:Ef.
      + apply CHK; [exact L|]. intros x x' Lx. apply GATE; [now apply vclear_not_full|reflexivity|]. intros y y' Ly. apply IH. split; assumption.
      + apply GATE; [exact Ef|exact L|]. intros y y' Ly. apply IH. split; assumption.
    - apply items_twin; [now rewrite !nrel_items|exact Q|]. intros x x' X. apply IH. split; assumption.
  Qed.

  (** its result is that of the session whose messages are the ones it has read *)
  Variables (vK : nat -> N) (d : N) (opek : nat -> list N) (bits : list bool) (datas chks rels : list (list N)) (dg : list (list N)).
  Notation seeds := (fun k : nat => G (nth k dg [])).
  Notation bitmsg := (fun i => nth i bits false).
  Notation chkmsg := (fun k => dec2 (nth k chks [])).
  Notation relmsg := (fun k => dec2 (nth k rels [])).
  Notation vstep := (ver_step r0 r1 vK d threads csz seeds bitmsg chkmsg).
  Notation vmanage := (ver_manage vK d threads seeds chkmsg).
  Notation vbatch := (pv_batch_check rseeds d opek relmsg).
  Definition bpos (v : vst) (q : pvst) (rl : list bool) (reads : list rd) (dl : list (list N)) : Prop :=
    skipn (v_bits v) bits = read_bits reads /\ pick false rl (read_data reads) = skipn (v_chk v) chks /\
    pick true rl (read_data reads) = skipn (pv_chk q) rels /\ skipn (v_chk v) dg = dl /\ exists pre, datas = pre ++ read_data reads.
  Lemma pre_next (pre t : list (list N)) x : datas = pre ++ x :: t -> exists pre, datas = pre ++ t.
  Proof. intro E. exists (pre ++ [x]). now rewrite <- app_assoc. Qed.
  Lemma beat_check {R : Type} v q rl (k : vst -> proc (option R)) reads dl r : bpos v q (false :: rl) reads dl ->
    eat (ver_check_prog vK d threads G v k) reads dl = Some (Some r) ->
    exists v1 reads' dl', vmanage v = Some v1 /\ bpos v1 q rl reads' dl' /\ eat (k v1) reads' dl' = Some (Some r).
  Proof.
    intros (P1 & P2 & P3 & P4 & pre & P5) E. unfold ver_check_prog in E. cbn [eat] in E. destruct dl as [|h dl]; [discriminate|].
    destruct (and_ranges threads (length (v_buf v))) as [rs|] eqn:Er; [|cbn [eat] in E; destruct reads, dl; discriminate].
    cbn [eat] in E. destruct reads as [|[b|x] reads]; try discriminate. destruct (Nat.eqb (length x) 32); [|discriminate].
    unfold ver_manage in E at 1. rewrite Er in E. cbn [eat] in E. cbn [read_data read_bits pick Bool.eqb] in *.
    symmetry in P2. destruct (skipn_cons _ _ _ _ [] P2) as [N2 Q2]. destruct (skipn_cons _ _ _ _ [] P4) as [N3 Q3].
    unfold ver_manage. rewrite Er, N2, N3. eexists. exists reads, dl. split; [reflexivity|]. split; [|exact E].
    split; [exact P1|]. split; [symmetry; exact Q2|]. split; [exact P3|]. split; [exact Q3|]. exact (pre_next _ _ _ P5).
  Qed.
  Lemma beat_gate {R : Type} v q rl g (k : vst -> proc (option R)) reads dl r : full csz g (length (v_buf v)) = false -> bpos v q rl reads dl ->
    eat (ver_gate r0 r1 vK d threads csz v g k) reads dl = Some (Some r) ->
    exists v1 reads' dl', vstep v g = Some v1 /\ bpos v1 q rl reads' dl' /\ eat (k v1) reads' dl' = Some (Some r).
  Proof.
    intros Hf (P1 & P2) E. unfold ver_gate in E. destruct (sends g) eqn:Eg.
    - cbn [eat] in E. destruct reads as [|[b|x] reads]; try discriminate. cbn [read_data read_bits] in P1, P2.
      destruct (skipn_cons _ _ _ _ false P1) as [N1 Q1].
      destruct g; try discriminate; cbn [ver_step full] in *; unfold ver_precheck in *; rewrite ?Hf in *; rewrite N1;
      eexists; exists reads, dl; (split; [reflexivity|]); (split; [|exact E]); (split; [exact Q1|]); exact P2.
    - destruct g; try discriminate; cbn [ver_step] in *;
      eexists; exists reads, dl; (split; [reflexivity|]); (split; [|exact E]); (split; [exact P1|]); exact P2.
  Qed.
  Lemma beat_rel {R : Type} v q rl (k : pvst -> proc (option R)) reads dl r :
    bpos v q ((if Nat.eqb (length (pv_buf q)) 0 then [] else [true]) ++ rl) reads dl ->
    eat (vrel_check d opek rseeds q k) reads dl = Some (Some r) ->
    exists reads', bpos v (vbatch q) rl reads' dl /\ eat (k (vbatch q)) reads' dl = Some (Some r).
  Proof.
    intros P E. unfold vrel_check in E. unfold pv_batch_check in *. destruct (pv_buf q) eqn:Eb.
    - cbn [length Nat.eqb app] in P. now exists reads.
    - cbn [length Nat.eqb app] in P. destruct P as (P1 & P2 & P3 & P4 & pre & P5).
      cbn [eat] in E. destruct reads as [|[b|x] reads]; try discriminate. destruct (Nat.eqb (length x) 32); [|discriminate].
      cbn [read_data read_bits pick Bool.eqb] in *. symmetry in P3. destruct (skipn_cons _ _ _ _ [] P3) as [N3 Q3].
      exists reads. rewrite N3. split; [|exact E]. split; [exact P1|]. split; [exact P2|]. split; [symmetry; exact Q3|]. split; [exact P4|]. exact (pre_next _ _ _ P5).
  Qed.
  Lemma batch_buf q : pv_buf (vbatch q) = [].
  Proof. unfold pv_batch_check. destruct (pv_buf q) eqn:E; [exact E|reflexivity]. Qed.
  Lemma beat_items {R : Type} v rl (k : pvst -> proc (option R)) dl r its : forall q l q' reads, 1 <= psz -> item_roles psz (length its) (length (pv_buf q)) = (l, q') ->
    bpos v q (l ++ rl) reads dl -> eat (vrel_items d psz opek rseeds its q k) reads dl = Some (Some r) ->
    let f := fold_left (pv_item psz rseeds d opek relmsg) its q in
    exists reads', bpos v f rl reads' dl /\ eat (k f) reads' dl = Some (Some r) /\ length (pv_buf f) = q'.
  Proof.
    induction its as [|i its IH]; intros q l q' reads Hp Er P E; cbn [length item_roles vrel_items fold_left] in *.
    - injection Er as <- <-. exists reads. auto.
    - assert (X : pv_item psz rseeds d opek relmsg q i = if Nat.leb psz (length (pv_buf q)) then pv_push (vbatch q) i else pv_push q i).
      { unfold pv_item. destruct (Nat.leb psz (length (pv_buf q))); reflexivity. }
      cbv zeta. rewrite X. destruct (Nat.leb psz (length (pv_buf q))) eqn:Ef.
      + destruct (item_roles psz (length its) 1) as [l1 q1] eqn:E1. injection Er as <- <-.
        assert (Hq : length (pv_buf q) <> 0) by (apply Nat.leb_le in Ef; lia).
        assert (P' : bpos v q ((if Nat.eqb (length (pv_buf q)) 0 then [] else [true]) ++ l1 ++ rl) reads dl).
        { destruct (Nat.eqb_spec (length (pv_buf q)) 0); [contradiction|exact P]. }
        destruct (beat_rel v q (l1 ++ rl) _ reads dl r P' E) as (reads' & P2 & E2).
        apply (IH (pv_push (vbatch q) i) l1 q1 reads' Hp); auto. cbn [pv_push pv_buf]. rewrite batch_buf. exact E1.
      + apply (IH (pv_push q i) l q' reads Hp); auto. cbn [pv_push pv_buf]. rewrite app_length. cbn [length]. now rewrite Nat.add_1_r.
  Qed.
  Lemma beat_ver prog : 1 <= psz -> forall v reads dl vf b, bpos (bv_gates v) (bv_poly v) (roles csz psz (length (v_buf (bv_gates v))) (length (pv_buf (bv_poly v))) prog) reads dl ->
    eat (bver_prog r0 r1 vK d threads csz psz opek rseeds G H v prog) reads dl = Some (Some (vf, b)) ->
    match bv_run r0 r1 vK d threads csz psz seeds rseeds opek bitmsg chkmsg relmsg v prog with
    | None => None
    | Some s => match ver_final vK d threads seeds chkmsg (bv_gates s) with
                | None => None | Some g => Some {| bv_gates := g; bv_poly := vbatch (bv_poly s) |} end
    end = Some vf /\ b = bv_finalize same_bytes H vf (last datas []).
  Proof.
    intro Hp.
    assert (FIN : forall v q s reads dl vf b, bpos v q [] reads dl -> eat (bver_fin H s) reads dl = Some (Some (vf, b)) ->
      vf = s /\ b = bv_finalize same_bytes H vf (last datas [])).
    { intros v q s reads dl vf b (P1 & P2 & P3 & P4 & pre & P5) E. unfold bver_fin in E. cbn [eat] in E. destruct reads as [|[?|x] reads]; try discriminate.
      destruct (Nat.eqb (length x) 32); [|discriminate]. cbn [eat] in E. destruct reads; [|discriminate]. destruct dl; [|discriminate].
      assert (X : vf = s /\ b = bv_finalize same_bytes H s x) by (split; congruence). destruct X as [-> ->].
      cbn [read_data] in P5. split; [reflexivity|]. rewrite P5, last_last. reflexivity. }
    induction prog as [|[g|c] prog IH]; intros v reads dl vf b P E; cbn [bver_prog bv_run roles] in *.
    - destruct (beat_rel _ _ _ _ _ _ _ P E) as (reads1 & P1 & E1). unfold ver_final.
      destruct (v_buf (bv_gates v)) eqn:Eb.
      + destruct (FIN _ _ _ _ _ _ _ P1 E1) as [-> ->]. auto.
      + cbn [length Nat.eqb] in P1. destruct (beat_check _ _ _ _ _ _ _ P1 E1) as (v1 & reads' & dl' & Em & P' & E'). rewrite Em.
        destruct (FIN _ _ _ _ _ _ _ P' E') as [-> ->]. auto.
    - cbn [bv_step]. destruct (full csz g (length (v_buf (bv_gates v)))) eqn:Ef.
      + destruct g as [| | | |wa wb|]; try discriminate. cbn [full] in Ef. rewrite Ef in P.
        destruct (beat_check _ _ _ _ _ _ _ P E) as (v1 & reads' & dl' & Em & P' & E').
        assert (X : vstep (bv_gates v) (GAnd wa wb) = vstep (v_clear v1) (GAnd wa wb)).
        { cbn [ver_step]. unfold ver_precheck. rewrite Ef, Em. cbn [v_clear v_buf length]. destruct (Nat.eqb_spec 0 csz); [lia|reflexivity]. }
        rewrite X.
        destruct (beat_gate (v_clear v1) _ _ _ _ reads' dl' _ (vclear_not_full csz v1 _ Hcsz) P' E') as (v2 & r2 & d2 & S2 & P2 & E2). rewrite S2.
        apply (IH {| bv_gates := v2; bv_poly := bv_poly v |} r2 d2); [|exact E2]. cbn [bv_gates bv_poly].
        cbn [ver_step] in S2. unfold ver_precheck in S2. cbn [v_clear v_buf length] in S2. destruct (Nat.eqb 0 csz) eqn:Z; [apply Nat.eqb_eq in Z; lia|].
        injection S2 as <-. cbn [v_buf app length] in *. exact P2.
      + assert (P0 : bpos (bv_gates v) (bv_poly v) (roles csz psz (length (v_buf (bv_gates v)) + match g with GAnd _ _ => 1 | _ => 0 end) (length (pv_buf (bv_poly v))) prog) reads dl).
        { destruct g; rewrite ?Nat.add_0_r; try exact P. cbn [full] in Ef. rewrite Ef in P. now rewrite Nat.add_1_r. }
        destruct (beat_gate _ _ _ g _ reads dl _ Ef P0 E) as (v2 & r2 & d2 & S2 & P2 & E2). rewrite S2.
        apply (IH {| bv_gates := v2; bv_poly := bv_poly v |} r2 d2); [|exact E2]. cbn [bv_gates bv_poly].
        replace (length (v_buf v2)) with (length (v_buf (bv_gates v)) + match g with GAnd _ _ => 1 | _ => 0 end); [exact P2|].
        symmetry. clear -S2 Ef. destruct g; cbn [ver_step full] in *; unfold ver_precheck in *; rewrite ?Ef in S2; injection S2 as <-; cbn [v_add v_buf]; rewrite ?app_length; cbn [length]; lia.
    - cbn [bv_step]. unfold pv_call.
      destruct (item_roles psz (nrel c) (length (pv_buf (bv_poly v)))) as [l q'] eqn:El.
      destruct (beat_items (bv_gates v) (roles csz psz (length (v_buf (bv_gates v))) q' prog) _ dl _ (ver_items d (bcall_map (wire (v_wires (bv_gates v))) c))
        (bv_poly v) l q' reads Hp ltac:(rewrite nrel_items; exact El) P E) as (reads' & P2 & E2 & L2).
      apply (IH {| bv_gates := bv_gates v; bv_poly := fold_left (pv_item psz rseeds d opek relmsg) (ver_items d (bcall_map (wire (v_wires (bv_gates v))) c)) (bv_poly v) |} reads' dl);
        [|exact E2]. cbn [bv_gates bv_poly]. rewrite L2. exact P2.
  Qed.
End Ver.
