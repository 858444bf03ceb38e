(** What a prover program can learn from the verifier of a session with both engines on one channel: two verifiers with different
    keys behave alike until one of them stops. *)
From Coq Require Import NArith List Bool Arith Lia.
From Verif Require Import Word FpModel ArithModel ArithSpec BoolModel BoolSpec BoolIOModel BoolIOSpec BoolPolyModel BoolPolySpec BSessModel BSessSpec
  WireModel WireProofs WireAny BWireModel BWireSpec BWireAny AWireModel AWireProofs AWireFix XWireModel.
Import ListNotations.

(** two programs that perform the same actions until one of them stops *)
Inductive stwin {R : Type} : proc (option R) -> proc (option R) -> Prop :=
| STDone r r' : stwin (PDone r) (PDone r')
| STStop V : stwin V (PDone None)
| STStop' V : stwin (PDone None) V
| STGetBit k k' : (forall b, stwin (k b) (k' b)) -> stwin (PGetBit k) (PGetBit k')
| STAlign d k k' : stwin k k' -> stwin (PAlign d k) (PAlign d k')
| STPut x k k' : stwin k k' -> stwin (PPut x k) (PPut x k')
| STGet len k k' : (forall x, stwin (k x) (k' x)) -> stwin (PGet len k) (PGet len k')
| STFlush k k' : stwin k k' -> stwin (PFlush k) (PFlush k')
| STHash k k' : (forall h, stwin (k h) (k' h)) -> stwin (PHash k) (PHash k').

Section Any.
  Variables (bs br reset : bool) (NB : nat).
  Context {RP RV : Type}.
  Lemma stwin_step (V V2 V' : proc (option RV)) r r' sr o sr' : stwin V V2 -> r_proc br reset NB V r sr = Some (V', r', o, sr') ->
    V2 = PDone None \/ exists V2', r_proc br reset NB V2 r sr = Some (V2', r', o, sr') /\ stwin V' V2'.
  Proof.
    intros T E. destruct T; cbn [r_proc] in *; try discriminate; [now left|right..].
    - destruct (recv_bit br NB r sr) as [[[b e] ch]|]; [|discriminate]. injection E as <- <- <- <-. eexists. split; [reflexivity|]. auto.
    - cbn [r_act] in *. destruct d.
      + destruct (Nat.eqb (e_ptr r) NB); injection E as <- <- <- <-; eexists; (split; [reflexivity|]); auto.
      + destruct (Nat.eqb (e_ptr r) 0); injection E as <- <- <- <-; eexists; (split; [reflexivity|]); auto.
    - cbn [r_act] in *. injection E as <- <- <- <-. eexists. split; [reflexivity|]. auto.
    - destruct (raw_read r len sr) as [[e ch]|]; [|discriminate]. injection E as <- <- <- <-. eexists. split; [reflexivity|]. auto.
    - cbn [r_act] in *. injection E as <- <- <- <-. eexists. split; [reflexivity|]. auto.
    - cbn [r_act] in *. injection E as <- <- <- <-. eexists. split; [reflexivity|]. auto.
  Qed.
  Definition same_but_v (n n' : @net RP (option RV)) : Prop :=
    n_p n' = n_p n /\ n_s n' = n_s n /\ n_r n' = n_r n /\ n_sr n' = n_sr n /\ n_rs n' = n_rs n.
  Theorem stwin_run gs gr (P : proc RP) V V2 k n : stwin V V2 -> @nsteps bs br reset NB RP (option RV) k (n_init NB gs gr P V) n ->
    exists j n1 n1', j <= k /\ nsteps bs br reset NB j (n_init NB gs gr P V) n1 /\ nsteps bs br reset NB j (n_init NB gs gr P V2) n1' /\
      same_but_v n1 n1' /\ ((j = k /\ n1 = n /\ stwin (n_v n) (n_v n1')) \/ n_v n1' = PDone None).
  Proof.
    intros T H. remember (n_init NB gs gr P V) as m eqn:Em. induction H as [m|k m n n' H IH Hs].
    - subst. exists 0. eexists. eexists. split; [lia|]. split; [constructor|]. split; [constructor|]. split; [repeat split; reflexivity|]. left. auto.
    - specialize (IH Em). destruct IH as (j & n1 & n1' & L & A & B & E & [(-> & -> & Tn)|X]);
        [|exists j, n1, n1'; split; [lia|]; auto].
      destruct E as (E1 & E2 & E3 & E4 & E5). destruct n1' as [P2 s2 V2' r2 sr2 rs2].
      destruct Hs as [P0 e V0 r sr rs P' e' o rs' Ha|P0 e V0 r sr rs V' r' o sr' Ha]; cbn [n_p n_s n_v n_r n_sr n_rs] in *; subst.
      + exists (S k). eexists. eexists. split; [lia|]. split; [econstructor; [exact A|apply NS; exact Ha]|].
        split; [econstructor; [exact B|apply NS; exact Ha]|]. split; [repeat split; reflexivity|]. left. auto.
      + destruct (stwin_step _ _ _ _ _ _ _ _ Tn Ha) as [->|(V3 & Ha' & T')].
        * exists k. eexists. eexists. split; [lia|]. split; [exact A|]. split; [exact B|]. split; [repeat split; reflexivity|]. now right.
        * exists (S k). eexists. eexists. split; [lia|]. split; [econstructor; [exact A|apply NR; exact Ha]|].
          split; [econstructor; [exact B|apply NR; exact Ha']|]. split; [repeat split; reflexivity|]. left. auto.
  Qed.
End Any.

Section Ver.
  Variables (r0 r1 : N) (threads csz psz : nat) (rseeds : nat -> N) (G : list N -> nat -> N) (H : list N -> list N).
  Variables (acsz apsz : nat) (AG : N -> nat -> N) (AH : list N -> list N) (coins : bool -> nat -> N).
  Variables (vK vK' : nat -> N) (d d' : N) (opek opek' : nat -> list N).
  Variables (pub_mac pub_mac' : N) (vV vV' : nat -> N) (ad ad' : N).
  Hypothesis Hcsz : 1 <= csz.
  Hypothesis Hacsz : 1 <= acsz.
  Section Cont.
    Context {RV : Type}.
    Lemma st_rel q q' (k k' : pvst -> proc (option RV)) : qlike q q' -> (forall x x', qlike x x' -> stwin (k x) (k' x')) ->
      stwin (vrel_check d opek rseeds q k) (vrel_check d' opek' rseeds q' k').
    Proof.
      intros [L C] K. unfold vrel_check. rewrite C. pose proof L as L'. revert L'.
      destruct (pv_buf q) eqn:E1, (pv_buf q') eqn:E2; try discriminate; intros _.
      - apply K. split; [now rewrite E1, E2|exact C].
      - do 3 constructor. constructor. intro x. apply K. unfold pv_batch_check. rewrite E1, E2. split; [reflexivity|]. cbn. congruence.
    Qed.
    Lemma st_items (k k' : pvst -> proc (option RV)) its : forall its' q q', length its = length its' -> qlike q q' -> (forall x x', qlike x x' -> stwin (k x) (k' x')) ->
      stwin (vrel_items d psz opek rseeds its q k) (vrel_items d' psz opek' rseeds its' q' k').
    Proof.
      induction its as [|i r IH]; intros [|j r'] q q' Hl Q K; try discriminate; cbn [vrel_items]; [now apply K|].
      injection Hl as Hl. pose proof Q as [L C]. rewrite <- L.
      assert (PU : forall x x', qlike x x' -> qlike (pv_push x i) (pv_push x' j)).
      { intros x x' [A B]. split; cbn; [rewrite !app_length; cbn; lia|exact B]. }
      destruct (Nat.leb psz (length (pv_buf q))).
      - apply st_rel; [exact Q|]. intros x x' X. apply IH; auto.
      - apply IH; auto.
    Qed.
    Lemma st_chk v v' (k k' : vst -> proc (option RV)) : vlike v v' -> (forall x x', vlike x x' -> stwin (k x) (k' x')) ->
      stwin (ver_check_prog vK d threads G v k) (ver_check_prog vK' d' threads G v' k').
    Proof.
      intros L K. unfold ver_check_prog. constructor. constructor. intro h. rewrite <- L.
      destruct (and_ranges threads (length (v_buf v))) eqn:Er; [|constructor]. constructor. constructor. intro x.
      unfold ver_manage. rewrite <- L, Er. constructor. apply K. exact L.
    Qed.
    Lemma st_gate v v' g (k k' : vst -> proc (option RV)) : full csz g (length (v_buf v)) = false -> vlike v v' -> (forall x x', vlike x x' -> stwin (k x) (k' x')) ->
      stwin (ver_gate r0 r1 vK d threads csz v g k) (ver_gate r0 r1 vK' d' threads csz v' g k').
    Proof.
      intros Hf L K. unfold ver_gate. unfold vlike in *.
      destruct g; cbn [sends full] in *; try (constructor; intro); cbn [ver_step]; unfold ver_precheck; rewrite <- ?L, ?Hf; apply K; cbn [v_add v_buf];
      rewrite ?app_length; cbn; congruence.
    Qed.
    Lemma st_bool s s' o (k k' : bver -> proc (option RV)) : blike s s' -> (forall x x', blike x x' -> stwin (k x) (k' x')) ->
      stwin (xv_bool r0 r1 vK d threads csz psz opek rseeds G s o k) (xv_bool r0 r1 vK' d' threads csz psz opek' rseeds G s' o k').
    Proof.
      intros [L Q] K. unfold xv_bool. destruct o as [g|c].
      - unfold vlike in L. rewrite <- L. destruct (full csz g (length (v_buf (bv_gates s)))) eqn:Ef.
        + apply st_chk; [exact L|]. intros x x' Lx. apply st_gate; [now apply vclear_not_full|reflexivity|]. intros y y' Ly. apply K. split; assumption.
        + apply st_gate; [exact Ef|exact L|]. intros y y' Ly. apply K. split; assumption.
      - apply st_items; [now rewrite !nrel_items|exact Q|]. intros x x' X. apply K. split; assumption.
    Qed.
    Lemma st_bool_end s s' (k k' : bver -> bool -> proc (option RV)) : blike s s' -> (forall x x' f f', stwin (k x f) (k' x' f')) ->
      stwin (xv_bool_end vK d threads opek rseeds G H s k) (xv_bool_end vK' d' threads opek' rseeds G H s' k').
    Proof.
      intros [L Q] K. unfold xv_bool_end. apply st_rel; [exact Q|]. intros x x' _. unfold vlike in L.
      destruct (v_buf (bv_gates s)) eqn:E1, (v_buf (bv_gates s')) eqn:E2; try discriminate.
      - constructor. constructor. intro y. apply K.
      - apply st_chk; [unfold vlike; now rewrite E1, E2|]. intros y y' _. constructor. constructor. intro z. apply K.
    Qed.
    Definition alike (v v' : avst) : Prop := vlen v v' /\ av_chk v = av_chk v' /\ av_pchk v = av_pchk v'.
    Lemma st_acheck v v' (k k' : avst -> proc (option RV)) : alike v v' -> (forall x x', alike x x' -> stwin (k x) (k' x')) ->
      stwin (xv_check threads vV ad AG coins v k) (xv_check threads vV' ad' AG coins v' k').
    Proof.
      intros ([L1 L2] & C1 & C2) K. unfold xv_check. rewrite <- C1, <- L1. do 4 constructor.
      destruct (a_ranges threads (length (av_buf v))) eqn:Er; [|constructor]. constructor. constructor. intro x. unfold av_manage. rewrite <- L1, Er.
      match goal with |- stwin (if ?e then _ else _) _ => destruct e end; [constructor|].
      match goal with |- stwin _ (if ?e then _ else _) => destruct e end; [constructor|]. constructor. apply K.
      split; [split; assumption|]. cbn [av_chk av_pchk]. split; congruence.
    Qed.
    Lemma st_batch v v' (k k' : avst -> proc (option RV)) : alike v v' -> av_poly v <> [] ->
      (forall x x', alike x x' -> av_buf x = av_buf v -> av_poly x = [] -> stwin (k x) (k' x')) ->
      stwin (xv_batch vV ad coins v k) (xv_batch vV' ad' coins v' k').
    Proof.
      intros ([L1 L2] & C1 & C2) Hne K. unfold xv_batch. rewrite <- C2. do 4 constructor. constructor. intro x. apply K;
      unfold av_batch; destruct (av_poly v) eqn:E1; try congruence; try reflexivity. destruct (av_poly v') eqn:E2; [discriminate|].
      split; [split; [exact L1|reflexivity]|]. cbn [av_chk av_pchk]. split; congruence.
    Qed.
    Lemma st_agate v v' g (k k' : avst -> proc (option RV)) : a_full acsz g (length (av_buf v)) = false -> a_pfull apsz g (length (av_poly v)) = false -> alike v v' ->
      (forall x x', alike x x' -> stwin (k x) (k' x')) ->
      stwin (xv_gate threads pub_mac vV ad acsz apsz v g k) (xv_gate threads pub_mac' vV' ad' acsz apsz v' g k').
    Proof.
      intros F1 F2 ([L1 L2] & C1 & C2) K. unfold xv_gate.
      assert (X : forall w w', stwin
        (match av_step pub_mac vV ad threads acsz apsz (fun _ _ => 0%N) (fun _ => 0%N) (fun _ => w) (fun _ => (0, 0)%N) (fun _ => (0, 0)%N) v g with
         | None => PDone None | Some s' => if av_err s' then PDone None else k s' end)
        (match av_step pub_mac' vV' ad' threads acsz apsz (fun _ _ => 0%N) (fun _ => 0%N) (fun _ => w') (fun _ => (0, 0)%N) (fun _ => (0, 0)%N) v' g with
         | None => PDone None | Some s' => if av_err s' then PDone None else k' s' end)).
      { intros w w'.
        assert (ST : exists v1 v1', av_step pub_mac vV ad threads acsz apsz (fun _ _ => 0%N) (fun _ => 0%N) (fun _ => w) (fun _ => (0, 0)%N) (fun _ => (0, 0)%N) v g = Some v1 /\
          av_step pub_mac' vV' ad' threads acsz apsz (fun _ _ => 0%N) (fun _ => 0%N) (fun _ => w') (fun _ => (0, 0)%N) (fun _ => (0, 0)%N) v' g = Some v1' /\ alike v1 v1').
        { assert (Q : forall t t', (Nat.leb apsz (length (av_poly v)) && negb (length (av_poly v) =? 0))%bool = false ->
            alike (av_queue vV ad apsz (fun _ => 0%N) (fun _ => (0, 0)%N) v t) (av_queue vV' ad' apsz (fun _ => 0%N) (fun _ => (0, 0)%N) v' t')).
          { intros t t' Z. unfold av_queue. rewrite <- L2. destruct (Nat.leb apsz (length (av_poly v))).
            - destruct (av_poly v) eqn:Ep; [|discriminate]. destruct (av_poly v') eqn:Ep'; [|discriminate]. unfold av_batch. rewrite Ep, Ep'.
              split; [split; cbn [av_buf av_poly]; [exact L1|]; now rewrite Ep, Ep'|split; assumption].
            - split; [split; cbn [av_buf av_poly]; [exact L1|]; rewrite !app_length; cbn; congruence|split; assumption]. }
          destruct g; cbn [av_step a_full a_pfull] in *; unfold av_precheck; rewrite <- ?L1, ?F1;
          (eexists; eexists; (split; [reflexivity|]); (split; [reflexivity|]));
          try (apply Q; exact F2); (split; [|split; assumption]); split; cbn [av_buf av_poly av_add av_reveal]; rewrite ?app_length; cbn [length]; congruence. }
        destruct ST as (v1 & v1' & -> & -> & L). destruct (av_err v1); [constructor|]. destruct (av_err v1'); [constructor|]. now apply K. }
      destruct (a_sends g); [|apply X]. constructor. constructor. intro x. apply X.
    Qed.
    Lemma st_arith v v' g (k k' : avst -> proc (option RV)) : alike v v' -> (forall x x', alike x x' -> stwin (k x) (k' x')) ->
      stwin (xv_arith threads pub_mac vV ad acsz apsz AG coins v g k) (xv_arith threads pub_mac' vV' ad' acsz apsz AG coins v' g k').
    Proof.
      intros A K. pose proof A as ([L1 L2] & C1 & C2). unfold xv_arith. rewrite <- L1, <- L2.
      destruct (a_full acsz g (length (av_buf v))) eqn:F1; [|destruct (a_pfull apsz g (length (av_poly v))) eqn:F2].
      - apply st_acheck; [exact A|]. intros x x' ([Lx1 Lx2] & D1 & D2). apply st_agate; auto; [now apply vclear_full|eapply full_not_p; eauto|].
        split; [split; [reflexivity|exact Lx2]|split; assumption].
      - assert (Hne : av_poly v <> []).
        { intro Z. rewrite Z in F2. destruct g; try discriminate; cbn in F2; now rewrite andb_false_r in F2. }
        apply st_batch; [exact A|exact Hne|]. intros x x' X B Z. apply st_agate; auto; [rewrite B; exact F1|].
        rewrite Z. destruct g; try reflexivity; cbn; apply andb_false_r.
      - now apply st_agate.
    Qed.
    Lemma st_arith_end v v' (k k' : avst -> proc (option RV)) : alike v v' -> (forall x x', stwin (k x) (k' x')) ->
      stwin (xv_arith_end threads vV ad AG AH coins v k) (xv_arith_end threads vV' ad' AG AH coins v' k').
    Proof.
      intros A K. unfold xv_arith_end.
      assert (DIG : forall x x', stwin (PAlign true (PGet 32 (fun b => if same_bytes (AH (av_hash x)) b then k x else PDone None)))
        (PAlign true (PGet 32 (fun b => if same_bytes (AH (av_hash x')) b then k' x' else PDone None)))).
      { intros x x'. constructor. constructor. intro b. destruct (same_bytes _ _); [|constructor]. destruct (same_bytes _ _); [apply K|constructor]. }
      assert (E : forall x x', alike x x' -> stwin
        (match av_buf x with [] => PAlign true (PGet 32 (fun b => if same_bytes (AH (av_hash x)) b then k x else PDone None))
         | _ => xv_check threads vV ad AG coins x (fun x => PAlign true (PGet 32 (fun b => if same_bytes (AH (av_hash x)) b then k x else PDone None))) end)
        (match av_buf x' with [] => PAlign true (PGet 32 (fun b => if same_bytes (AH (av_hash x')) b then k' x' else PDone None))
         | _ => xv_check threads vV' ad' AG coins x' (fun x => PAlign true (PGet 32 (fun b => if same_bytes (AH (av_hash x)) b then k' x else PDone None))) end)).
      { intros x x' X. pose proof X as ([L1 L2] & _). destruct (av_buf x) eqn:E1, (av_buf x') eqn:E2; try discriminate; [apply DIG|].
        apply st_acheck; [exact X|auto]. }
      pose proof A as ([L1 L2] & _). destruct (av_poly v) eqn:E1, (av_poly v') eqn:E2; try discriminate; [now apply E|].
      apply st_batch; [exact A|now rewrite E1|auto].
    Qed.
  End Cont.
  Definition xlike (s s' : xver) : Prop := blike (xv_b s) (xv_b s') /\ alike (xv_a s) (xv_a s').
  Lemma xver_stwin prog : forall s s', xlike s s' ->
    stwin (xver_prog r0 r1 vK d threads csz psz opek rseeds G H pub_mac vV ad acsz apsz AG AH coins s prog)
          (xver_prog r0 r1 vK' d' threads csz psz opek' rseeds G H pub_mac' vV' ad' acsz apsz AG AH coins s' prog).
  Proof.
    induction prog as [|[o|g|fp x|] prog IH]; intros s s' [B A]; cbn [xver_prog].
    - apply st_bool_end; [exact B|]. intros x x' f f'. apply st_arith_end; [exact A|]. intros y y'. constructor. constructor.
    - apply st_bool; [exact B|]. intros x x' X. apply IH. split; assumption.
    - apply st_arith; [exact A|]. intros x x' X. apply IH. split; assumption.
    - destruct fp.
      + constructor. constructor. intro y. apply IH. split; assumption.
      + constructor. constructor. apply IH. split; assumption.
    - constructor. apply IH. split; assumption.
  Qed.
End Ver.

(** ** changing the boolean engine only: it never stops *)
Section VerBool.
  Variables (r0 r1 : N) (threads csz psz : nat) (rseeds : nat -> N) (G : list N -> nat -> N) (H : list N -> list N).
  Variables (acsz apsz : nat) (AG : N -> nat -> N) (AH : list N -> list N) (coins : bool -> nat -> N).
  Variables (vK vK' : nat -> N) (d d' : N) (opek opek' : nat -> list N).
  Variables (pub_mac : N) (vV : nat -> N) (ad : N).
  Hypothesis Hcsz : 1 <= csz.
  Section Cont.
    Context {RV : Type}.
    Lemma bt_rel q q' (k k' : pvst -> proc (option RV)) : qlike q q' -> (forall x x', qlike x x' -> btwin (k x) (k' x')) ->
      btwin (vrel_check d opek rseeds q k) (vrel_check d' opek' rseeds q' k').
    Proof.
      intros [L C] K. unfold vrel_check. rewrite C. pose proof L as L'. revert L'.
      destruct (pv_buf q) eqn:E1, (pv_buf q') eqn:E2; try discriminate; intros _.
      - apply K. split; [now rewrite E1, E2|exact C].
      - do 3 constructor. constructor. intro x. apply K. unfold pv_batch_check. rewrite E1, E2. split; [reflexivity|]. cbn. congruence.
    Qed.
    Lemma bt_items (k k' : pvst -> proc (option RV)) its : forall its' q q', length its = length its' -> qlike q q' -> (forall x x', qlike x x' -> btwin (k x) (k' x')) ->
      btwin (vrel_items d psz opek rseeds its q k) (vrel_items d' psz opek' rseeds its' q' k').
    Proof.
      induction its as [|i r IH]; intros [|j r'] q q' Hl Q K; try discriminate; cbn [vrel_items]; [now apply K|].
      injection Hl as Hl. pose proof Q as [L C]. rewrite <- L.
      assert (PU : forall x x', qlike x x' -> qlike (pv_push x i) (pv_push x' j)).
      { intros x x' [A B]. split; cbn; [rewrite !app_length; cbn; lia|exact B]. }
      destruct (Nat.leb psz (length (pv_buf q))).
      - apply bt_rel; [exact Q|]. intros x x' X. apply IH; auto.
      - apply IH; auto.
    Qed.
    Lemma bt_chk v v' (k k' : vst -> proc (option RV)) : vlike v v' -> (forall x x', vlike x x' -> btwin (k x) (k' x')) ->
      btwin (ver_check_prog vK d threads G v k) (ver_check_prog vK' d' threads G v' k').
    Proof.
      intros L K. unfold ver_check_prog. constructor. constructor. intro h. rewrite <- L.
      destruct (and_ranges threads (length (v_buf v))) eqn:Er; [|constructor]. constructor. constructor. intro x.
      unfold ver_manage. rewrite <- L, Er. constructor. apply K. exact L.
    Qed.
    Lemma bt_gate v v' g (k k' : vst -> proc (option RV)) : full csz g (length (v_buf v)) = false -> vlike v v' -> (forall x x', vlike x x' -> btwin (k x) (k' x')) ->
      btwin (ver_gate r0 r1 vK d threads csz v g k) (ver_gate r0 r1 vK' d' threads csz v' g k').
    Proof.
      intros Hf L K. unfold ver_gate. unfold vlike in *.
      destruct g; cbn [sends full] in *; try (constructor; intro); cbn [ver_step]; unfold ver_precheck; rewrite <- ?L, ?Hf; apply K; cbn [v_add v_buf];
      rewrite ?app_length; cbn; congruence.
    Qed.
    Lemma bt_bool s s' o (k k' : bver -> proc (option RV)) : blike s s' -> (forall x x', blike x x' -> btwin (k x) (k' x')) ->
      btwin (xv_bool r0 r1 vK d threads csz psz opek rseeds G s o k) (xv_bool r0 r1 vK' d' threads csz psz opek' rseeds G s' o k').
    Proof.
      intros [L Q] K. unfold xv_bool. destruct o as [g|c].
      - unfold vlike in L. rewrite <- L. destruct (full csz g (length (v_buf (bv_gates s)))) eqn:Ef.
        + apply bt_chk; [exact L|]. intros x x' Lx. apply bt_gate; [now apply vclear_not_full|reflexivity|]. intros y y' Ly. apply K. split; assumption.
        + apply bt_gate; [exact Ef|exact L|]. intros y y' Ly. apply K. split; assumption.
      - apply bt_items; [now rewrite !nrel_items|exact Q|]. intros x x' X. apply K. split; assumption.
    Qed.
    Lemma bt_bool_end s s' (k k' : bver -> bool -> proc (option RV)) : blike s s' -> (forall x x' f f', btwin (k x f) (k' x' f')) ->
      btwin (xv_bool_end vK d threads opek rseeds G H s k) (xv_bool_end vK' d' threads opek' rseeds G H s' k').
    Proof.
      intros [L Q] K. unfold xv_bool_end. apply bt_rel; [exact Q|]. intros x x' _. unfold vlike in L.
      destruct (v_buf (bv_gates s)) eqn:E1, (v_buf (bv_gates s')) eqn:E2; try discriminate.
      - constructor. constructor. intro y. apply K.
      - apply bt_chk; [unfold vlike; now rewrite E1, E2|]. intros y y' _. constructor. constructor. intro z. apply K.
    Qed.
    Lemma bt_acheck v (k k' : avst -> proc (option RV)) : (forall x, btwin (k x) (k' x)) ->
      btwin (xv_check threads vV ad AG coins v k) (xv_check threads vV ad AG coins v k').
    Proof.
      intro K. unfold xv_check. do 4 constructor. destruct (a_ranges _ _); [|constructor]. constructor. constructor. intro x.
      destruct (av_manage _ _ _ _ _ _) as [y|]; [|constructor]. destruct (av_err y); [constructor|]. constructor. apply K.
    Qed.
    Lemma bt_batch v (k k' : avst -> proc (option RV)) : (forall x, btwin (k x) (k' x)) ->
      btwin (xv_batch vV ad coins v k) (xv_batch vV ad coins v k').
    Proof. intro K. unfold xv_batch. do 4 constructor. constructor. intro x. apply K. Qed.
    Lemma bt_agate v g (k k' : avst -> proc (option RV)) : (forall x, btwin (k x) (k' x)) ->
      btwin (xv_gate threads pub_mac vV ad acsz apsz v g k) (xv_gate threads pub_mac vV ad acsz apsz v g k').
    Proof.
      intro K. unfold xv_gate. destruct (a_sends g); [constructor; constructor; intro x|];
      (destruct (av_step _ _ _ _ _ _ _ _ _ _ _ _ _) as [y|]; [|constructor]; destruct (av_err y); [constructor|apply K]).
    Qed.
    Lemma bt_arith v g (k k' : avst -> proc (option RV)) : (forall x, btwin (k x) (k' x)) ->
      btwin (xv_arith threads pub_mac vV ad acsz apsz AG coins v g k) (xv_arith threads pub_mac vV ad acsz apsz AG coins v g k').
    Proof.
      intro K. unfold xv_arith. destruct (a_full _ _ _); [apply bt_acheck; intro; now apply bt_agate|].
      destruct (a_pfull _ _ _); [apply bt_batch; intro|]; now apply bt_agate.
    Qed.
    Lemma bt_arith_end v (k k' : avst -> proc (option RV)) : (forall x, btwin (k x) (k' x)) ->
      btwin (xv_arith_end threads vV ad AG AH coins v k) (xv_arith_end threads vV ad AG AH coins v k').
    Proof.
      intro K. unfold xv_arith_end.
      assert (DIG : forall x, btwin (PAlign true (PGet 32 (fun b => if same_bytes (AH (av_hash x)) b then k x else PDone None)))
        (PAlign true (PGet 32 (fun b => if same_bytes (AH (av_hash x)) b then k' x else PDone None)))).
      { intro x. constructor. constructor. intro b. destruct (same_bytes _ _); [apply K|constructor]. }
      destruct (av_poly v); [|apply bt_batch; intro]; (destruct (av_buf _); [apply DIG|now apply bt_acheck]).
    Qed.
  End Cont.
  Lemma xver_btwin prog : forall s s', blike (xv_b s) (xv_b s') -> xv_a s = xv_a s' ->
    btwin (xver_prog r0 r1 vK d threads csz psz opek rseeds G H pub_mac vV ad acsz apsz AG AH coins s prog)
          (xver_prog r0 r1 vK' d' threads csz psz opek' rseeds G H pub_mac vV ad acsz apsz AG AH coins s' prog).
  Proof.
    induction prog as [|[o|g|fp x|] prog IH]; intros s s' B A; cbn [xver_prog].
    - apply bt_bool_end; [exact B|]. intros x x' f f'. rewrite A. apply bt_arith_end. intro y. constructor. constructor.
    - apply bt_bool; [exact B|]. intros x x' X. now apply IH.
    - rewrite A. apply bt_arith. intro x. now apply IH.
    - destruct fp.
      + constructor. constructor. intro y. now apply IH.
      + constructor. constructor. now apply IH.
    - constructor. now apply IH.
  Qed.
End VerBool.
