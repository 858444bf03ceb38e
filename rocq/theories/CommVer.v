(** Bytes sent by the verifier of both engines, against any prover program. *)
From Coq Require Import NArith List Bool Arith Lia.
From Verif Require Import Word FpModel ArithModel BoolModel BoolIOModel BoolPolyModel BoolPolySpec BSessModel WireModel WireProofs BWireModel BWireSpec AWireModel AWireProofs XWireModel CommSpec CommVerSpec.
From Verif Require AWireHide.
Import ListNotations.

(** what a program has still to send until it ends with a result *)
Fixpoint vcosts {R : Type} (P : proc (option R)) (n : nat) : Prop :=
  match P with
  | PDone None | PBit _ _ => True
  | PDone (Some _) => n = 0
  | PGetBit k => forall b, vcosts (k b) n
  | PAlign _ k | PFlush k => vcosts k n
  | PPut x k => exists m, n = length x + m /\ vcosts k m
  | PGet _ k => forall x, vcosts (k x) n
  | PHash k => forall h, vcosts (k h) n
  end.
Lemma vcost_step {R} br reset NB (P : proc (option R)) e ch P' e' o ch' n : vcosts P n -> r_proc br reset NB P e ch = Some (P', e', o, ch') ->
  exists m, n = length o + m /\ vcosts P' m.
Proof.
  intros C S0. destruct P as [r|b k|k|d k|x k|len k|k|k]; cbn [r_proc vcosts] in *; try discriminate S0.
  - destruct (recv_bit br NB e ch) as [[[b e1] c1]|]; [|discriminate]. injection S0 as <- <- <- <-. exists n. auto.
  - cbn [r_act] in S0. destruct d; injection S0 as <- <- <- <-; exists n; auto.
  - cbn [r_act] in S0. injection S0 as <- <- <- <-. exact C.
  - destruct (raw_read e len ch) as [[e1 c1]|]; [|discriminate]. injection S0 as <- <- <- <-. exists n. auto.
  - cbn [r_act] in S0. injection S0 as <- <- <- <-. exists n. auto.
  - cbn [r_act] in S0. injection S0 as <- <- <- <-. exists n. auto.
Qed.
Lemma vcost_run {RP RV} bs br reset NB gs gr (P : proc RP) (V : proc (option RV)) n c m : vcosts V n ->
  vcounted bs br reset NB (n_init NB gs gr P V) c m -> exists rest, n = c + rest /\ vcosts (n_v m) rest.
Proof.
  intros C Hc. induction Hc as [|c P0 e V0 r sr rs P' e' o rs' Hc IH St|c P0 e V0 r sr rs V' r' o sr' Hc IH St].
  - exists n. auto.
  - exact IH.
  - cbn [n_v] in *. destruct IH as (rest & E & C'). destruct (vcost_step _ _ _ _ _ _ _ _ _ _ _ C' St) as (m & E' & C2). exists m. split; [lia|exact C2].
Qed.

Section Prog.
  Variables (r0 r1 : N) (vK : nat -> N) (delta : N) (threads csz psz : nat) (opek : nat -> list N) (rseeds : nat -> N) (G : list N -> nat -> N) (H : list N -> list N).
  Variables (pub_mac : N) (vV : nat -> N) (adelta : N) (acsz apsz : nat) (AG : N -> nat -> N) (AH : list N -> list N) (coins : bool -> nat -> N).
  Lemma v_gate {R} s g (k : vst -> proc (option R)) n : (forall s', vcosts (k s') n) -> vcosts (ver_gate r0 r1 vK delta threads csz s g k) n.
  Proof.
    intro K. unfold ver_gate.
    assert (X : forall b, vcosts (match ver_step r0 r1 vK delta threads csz (fun _ _ => 0%N) (fun _ => b) (fun _ => (0, 0)%N) s g with None => PDone None | Some s' => k s' end) n).
    { intro b. destruct (ver_step _ _ _ _ _ _ _ _ _ s g); [apply K|exact I]. }
    destruct (sends g); [exact X|apply X].
  Qed.
  Lemma v_and_check {R} s (k : vst -> proc (option R)) n : (forall s', vcosts (k s') n) -> vcosts (ver_check_prog vK delta threads G s k) n.
  Proof.
    intro K. unfold ver_check_prog. cbn [vcosts]. intro h. destruct (and_ranges threads (length (v_buf s))); [|exact I]. cbn [vcosts]. intro x.
    destruct (ver_manage _ _ _ _ _ s); [apply K|exact I].
  Qed.
  Lemma v_rel {R} s (k : pvst -> proc (option R)) n : pv_buf s <> [] -> (forall s', pv_buf s' = [] -> vcosts (k s') n) ->
    vcosts (vrel_check delta opek rseeds s k) (16 + n).
  Proof.
    intros Ne K. unfold vrel_check. destruct (pv_buf s) as [|i l] eqn:E; [now elim Ne|]. cbn [vcosts]. exists n. split; [now rewrite enc_block_len|]. intro x.
    apply K. unfold pv_batch_check. now rewrite E.
  Qed.
  Lemma v_items {R} (Hpsz : 1 <= psz) its : forall s (k : pvst -> proc (option R)) n, let (c, q) := rels psz (length its) (length (pv_buf s)) in
    (forall s', length (pv_buf s') = q -> vcosts (k s') n) -> vcosts (vrel_items delta psz opek rseeds its s k) (16 * c + n).
  Proof.
    induction its as [|i its IH]; intros s k n; cbn [length rels vrel_items].
    - intro K. now apply K.
    - destruct (Nat.leb_spec psz (length (pv_buf s))) as [F|F].
      + destruct (rels psz (length its) 1) as [c q] eqn:Er. intro K.
        replace (16 * S c + n) with (16 + (16 * c + n)) by (clear; lia).
        apply v_rel; [intro Z; rewrite Z in F; cbn in F; clear - F Hpsz; lia|]. intros s' Es'.
        specialize (IH (pv_push s' i) k n). unfold pv_push at 1 in IH. cbn [pv_buf] in IH. rewrite Es' in IH. cbn [app length] in IH. rewrite Er in IH. now apply IH.
      + specialize (IH (pv_push s i) k n). unfold pv_push at 1 in IH. cbn [pv_buf] in IH. rewrite app_length, Nat.add_1_r in IH.
        destruct (rels psz (length its) (S (length (pv_buf s)))) as [c q]. exact IH.
  Qed.
  Lemma v_mul_check {R} s (k : avst -> proc (option R)) n : (forall s', length (av_buf s') = length (av_buf s) -> length (av_poly s') = length (av_poly s) -> vcosts (k s') n) ->
    vcosts (xv_check threads vV adelta AG coins s k) (16 + n).
  Proof.
    intro K. unfold xv_check. cbn [vcosts]. exists n. split; [now rewrite enc_block_len|].
    destruct (a_ranges threads (length (av_buf s))) eqn:Er; [|exact I]. cbn [vcosts]. intro b. unfold av_manage. rewrite Er.
    match goal with |- context [if ?x then PDone None else _] => destruct x end; [exact I|]. cbn [vcosts]. now apply K.
  Qed.
  Lemma v_batch {R} s (k : avst -> proc (option R)) n : av_poly s <> [] -> (forall s', length (av_buf s') = length (av_buf s) -> av_poly s' = [] -> vcosts (k s') n) ->
    vcosts (xv_batch vV adelta coins s k) (8 + n).
  Proof.
    intros Ne K. unfold xv_batch. cbn [vcosts]. exists n. split; [now rewrite enc64_len|]. intro b. unfold av_batch. destruct (av_poly s) eqn:E; [now elim Ne|]. now apply K.
  Qed.
  Lemma v_agate {R} s g (k : avst -> proc (option R)) n : a_full acsz g (length (av_buf s)) = false -> a_pfull apsz g (length (av_poly s)) = false ->
    (forall s', length (av_buf s') = AWireHide.g_mul g + length (av_buf s) -> length (av_poly s') = AWireHide.g_rel g + length (av_poly s) -> vcosts (k s') n) ->
    vcosts (xv_gate threads pub_mac vV adelta acsz apsz s g k) n.
  Proof.
    intros F1 F2 K. unfold xv_gate.
    assert (X : forall w, vcosts (match av_step pub_mac vV adelta threads acsz apsz (fun _ _ => 0%N) (fun _ => 0%N) (fun _ => w) (fun _ => (0, 0)%N) (fun _ => (0, 0)%N) s g with
      None => PDone None | Some s' => if av_err s' then PDone None else k s' end) n).
    { intro w. destruct (av_step _ _ _ _ _ _ _ _ _ _ _ s g) as [s'|] eqn:E; [|exact I]. destruct (av_err s'); [exact I|].
      assert (Q : forall t, Nat.leb apsz (length (av_poly s)) && negb (length (av_poly s) =? 0) = false ->
        forall ps pm, length (av_poly (av_queue vV adelta apsz ps pm s t)) = S (length (av_poly s)) /\ length (av_buf (av_queue vV adelta apsz ps pm s t)) = length (av_buf s)).
      { intros t Z ps pm. unfold av_queue. destruct (Nat.leb apsz (length (av_poly s))); cbn [andb] in Z.
        - destruct (av_poly s) eqn:Ep; [|discriminate Z]. unfold av_batch. rewrite Ep. cbn. now rewrite Ep.
        - cbn [av_poly av_buf]. rewrite app_length. cbn. split; [apply Nat.add_1_r|reflexivity]. }
      destruct g; cbn [av_step a_full a_pfull] in *; try (injection E as <-; apply K; reflexivity).
      - unfold av_precheck in E. rewrite F1 in E. injection E as <-. apply K; cbn; [rewrite app_length; cbn; apply Nat.add_1_r|reflexivity].
      - injection E as <-. destruct (Q (poly_ver adelta (awires (av_w s) xs) (awires (av_w s) ys) coeff) F2 (fun _ => 0%N) (fun _ => (0, 0)%N)) as [A B]. apply K; [exact B|exact A].
      - injection E as <-. destruct (Q (inner_ver adelta (awires (av_w s) xs) (awires (av_w s) ys) c) F2 (fun _ => 0%N) (fun _ => (0, 0)%N)) as [A B]. apply K; [exact B|exact A]. }
    destruct (a_sends g); [cbn [vcosts]; intro b; apply X|apply X].
  Qed.
  Lemma v_bool_end {R} s (k : bver -> bool -> proc (option R)) n : (forall s' f, vcosts (k s' f) n) ->
    vcosts (xv_bool_end vK delta threads opek rseeds G H s k) (some (length (pv_buf (bv_poly s))) 16 + n).
  Proof.
    intro K. unfold xv_bool_end.
    assert (D : forall q, vcosts (let dig g := let s' := {| bv_gates := g; bv_poly := q |} in PAlign true (PGet 32 (fun x => k s' (bv_finalize same_bytes H s' x))) in
        match v_buf (bv_gates s) with [] => dig (bv_gates s) | _ => ver_check_prog vK delta threads G (bv_gates s) dig end) n).
    { intro q. cbv zeta. destruct (v_buf (bv_gates s)); [cbn [vcosts]; intro x; apply K|]. apply v_and_check. intro s'. cbn [vcosts]. intro x. apply K. }
    destruct (pv_buf (bv_poly s)) as [|i l] eqn:E.
    - unfold vrel_check. rewrite E. apply D.
    - apply (v_rel (bv_poly s)); [rewrite E; discriminate|]. intros s' _. apply D.
  Qed.
  Lemma v_arith_end {R} s (k : avst -> proc (option R)) n : (forall s', vcosts (k s') n) ->
    vcosts (xv_arith_end threads vV adelta AG AH coins s k) (some (length (av_poly s)) 8 + (some (length (av_buf s)) 16 + n)).
  Proof.
    intro K. unfold xv_arith_end. cbv zeta.
    assert (D0 : forall s', vcosts (PAlign true (PGet 32 (fun b => if same_bytes (AH (av_hash s')) b then k s' else PDone None))) n).
    { intro s'. cbn [vcosts]. intro b. destruct (same_bytes _ b); [apply K|exact I]. }
    assert (D : forall s' : avst, length (av_buf s') = length (av_buf s) -> vcosts (match av_buf s' with
        [] => PAlign true (PGet 32 (fun b => if same_bytes (AH (av_hash s')) b then k s' else PDone None))
        | _ => xv_check threads vV adelta AG coins s' (fun s => PAlign true (PGet 32 (fun b => if same_bytes (AH (av_hash s)) b then k s else PDone None))) end)
        (some (length (av_buf s)) 16 + n)).
    { intros s' L. rewrite <- L. destruct (av_buf s') as [|i l] eqn:E; [apply D0|]. cbn [some length Nat.eqb]. apply v_mul_check. intros s2 _ _. apply D0. }
    destruct (av_poly s) as [|i l] eqn:E; [now apply D|]. cbn [some length Nat.eqb]. apply v_batch; [rewrite E; discriminate|]. intros s' L _. now apply D.
  Qed.
  Hypothesis Hpsz : 1 <= psz.
  Hypothesis Hacsz : 1 <= acsz.
  Notation prog_of := (xver_prog r0 r1 vK delta threads csz psz opek rseeds G H pub_mac vV adelta acsz apsz AG AH coins).
  Notation com := (vcomm psz acsz apsz).
  Lemma v_items_nrel d (f : nat -> N) c : length (ver_items d (bcall_map f c)) = nrel c.
  Proof. destruct c; cbn [bcall_map ver_items nrel]; rewrite ?map_length, ?seq_length; reflexivity. Qed.
  Lemma vcomm_cost prog : forall s, vcosts (prog_of s prog) (com (length (pv_buf (bv_poly (xv_b s)))) (length (av_buf (xv_a s))) (length (av_poly (xv_a s))) prog).
  Proof.
    induction prog as [|o prog IH]; intros [[sg sq] sa got]; cbn [xv_b xv_a xv_got bv_gates bv_poly].
    - cbn [xver_prog vcomm]. rewrite <- Nat.add_assoc. apply (v_bool_end {| bv_gates := sg; bv_poly := sq |}). intros b f.
      rewrite <- (Nat.add_0_r (some (length (av_buf sa)) 16)). apply v_arith_end. intro a. reflexivity.
    - assert (IHs : forall g q a got ql ml pl, length (pv_buf q) = ql -> length (av_buf a) = ml -> length (av_poly a) = pl ->
        vcosts (prog_of {| xv_b := {| bv_gates := g; bv_poly := q |}; xv_a := a; xv_got := got |} prog) (com ql ml pl prog)).
      { intros g q a gt ql ml pl <- <- <-. exact (IH {| xv_b := {| bv_gates := g; bv_poly := q |}; xv_a := a; xv_got := gt |}). }
      clear IH. destruct o as [[g|c]|g|[] x|]; cbn [xver_prog xv_b xv_a xv_got vcomm].
      + unfold xv_bool. cbn [bv_gates bv_poly]. cbv zeta. destruct (full csz g (length (v_buf sg))).
        * apply v_and_check. intro s'. apply v_gate. intro s2. now apply IHs.
        * apply v_gate. intro s2. now apply IHs.
      + unfold xv_bool. cbn [bv_gates bv_poly].
        pose proof (v_items Hpsz (ver_items delta (bcall_map (wire (v_wires sg)) c)) sq (fun q => prog_of {| xv_b := {| bv_gates := sg; bv_poly := q |}; xv_a := sa; xv_got := got |} prog)) as X.
        rewrite v_items_nrel in X. destruct (rels psz (nrel c) (length (pv_buf sq))) as [ch q']. apply X. intros s2 L2. now apply IHs.
      + unfold xv_arith. destruct (a_full acsz g (length (av_buf sa))) eqn:F.
        * destruct g; cbn [a_full] in F; try discriminate F. rewrite F. apply v_mul_check. intros s1 _ L1.
          apply v_agate; [cbn; destruct acsz; [lia|reflexivity]|reflexivity|]. intros s2 L2 L3.
          apply IHs; [reflexivity|exact L2|rewrite L3; cbn; exact L1].
        * destruct (a_pfull apsz g (length (av_poly sa))) eqn:Fp.
          -- assert (Ne : av_poly sa <> []) by (intro Z; rewrite Z in Fp; destruct g; cbn in Fp; rewrite ?andb_false_r in Fp; discriminate).
             destruct g; cbn [a_pfull] in Fp; try discriminate Fp; rewrite Fp; (apply v_batch; [exact Ne|]); intros s1 L1 E1;
               (apply v_agate; [reflexivity|cbn; rewrite E1; cbn; now rewrite andb_false_r|]); intros s2 L2 L3;
               (apply IHs; [reflexivity|rewrite L2; exact L1|rewrite L3, E1; reflexivity]).
          -- destruct g; cbn [a_full a_pfull] in F, Fp; rewrite ?F, ?Fp; (apply v_agate; [assumption || reflexivity..|]); intros s2 L2 L3; cbn in L2, L3; apply IHs; try reflexivity; assumption.
      + cbn [vcosts]. intro y. now apply IHs.
      + cbn [vcosts]. eexists. split; [reflexivity|]. now apply IHs.
      + cbn [vcosts]. now apply IHs.
  Qed.
End Prog.
