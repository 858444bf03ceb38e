(** Honest boolean sessions with gates and relations over the channel, all interleavings. *)
From Coq Require Import NArith List Bool Arith Lia.
From Verif Require Import Word WordProofs GF128 GF128Ring BoolModel BoolSpec BoolProofs BoolAlg BoolThms BoolThms2 BoolIOModel BoolIOSpec BoolIOProofs
  BoolIOThms BoolIOThms2 HideProofs BoolPolyModel BoolPolySpec BSessModel BSessSpec BSessProofs BSessThms WireModel WireNet WireProofs BWireModel BWireProofs.
Import ListNotations.

Section Follow.
  Variables (r0 r1 : N) (pM vK : nat -> N) (delta : N) (threads csz psz : nat) (ope opek : nat -> list N) (rseeds : nat -> N).
  Variables (G : list N -> nat -> N) (H : list N -> list N).
  Hypothesis Hth : 1 <= threads.
  Hypothesis Hcsz : threads <= csz.
  Hypothesis HH : forall l, length (H l) = 32.
  Hypothesis Hope : forall k, length (ope k) = 128.
  Hypothesis Hrs : forall k, (rseeds k < 2 ^ 128)%N.
  Variable seeds : nat -> nat -> N.
  Notation batch := (pp_batch_check rseeds ope).
  Notation rel_ops := (rel_ops rseeds ope).
  Notation isched := (isched psz rseeds ope).
  Notation bsched := (bsched r0 r1 pM threads csz psz rseeds ope H seeds).
  Notation step := (prv_step r0 r1 pM threads csz seeds).
  Notation seeds_are := (seeds_are G seeds).
  Lemma sd_head k h dl : seeds_are k (h :: dl) -> seeds k = G h /\ seeds_are (S k) dl.
  Proof. exact (WireProofs.seeds_head pM vK threads csz G H Hth Hcsz HH seeds k h dl). Qed.
  Lemma pfx_nth {A} (a b : list A) d x : prefix (a ++ [x]) b -> nth (length a) b d = x.
  Proof. intros [t ->]. rewrite <- app_assoc. cbn [app]. now rewrite app_nth2, Nat.sub_diag by lia. Qed.
  (** ** the prover *)
  Lemma rel_follow {R : Type} s (k : ppst -> proc (option R)) l dl res : follow true (k (batch s)) l dl res ->
    follow true (prel_check ope s k) (compile (rel_ops s) ++ l) dl res.
  Proof.
    intro F. unfold prel_check, BWireProofs.rel_ops. destruct (pp_buf s) as [|i b] eqn:Eb.
    - unfold pp_batch_check in F. rewrite Eb in F. exact F.
    - assert (E : pp_batch_check (fun _ => dec_bytes (enc_block (rseeds (pp_chk s)))) ope s = batch s).
      { unfold pp_batch_check. rewrite Eb, dec_enc by apply Hrs. reflexivity. }
      set (x := enc_block (rseeds (pp_chk s))) in *. set (y := enc2 (last (pp_msgs (batch s)) (0, 0)%N)).
      cbn [compile flat_map compile1 app follow Bool.eqb].
      eexists. split; [reflexivity|]. assert (Lx : length x = 16) by apply enc_block_len. rewrite Lx.
      eexists. split; [reflexivity|]. cbn beta. rewrite E. eexists. split; [reflexivity|]. eexists. split; [reflexivity|]. exact F.
  Qed.
  Lemma items_follow {R : Type} its (k : ppst -> proc (option R)) l dl res : forall s, follow true (k (snd (isched its s))) l dl res ->
    follow true (prel_items psz ope its s k) (compile (fst (isched its s)) ++ l) dl res.
  Proof.
    induction its as [|i r IH]; intros s F; cbn [BWireProofs.isched prel_items] in *; [exact F|].
    destruct (Nat.leb psz (length (pp_buf s))); [|now apply IH].
    specialize (IH (pp_push (batch s) i)). destruct (isched r (pp_push (batch s) i)) as [os q]. cbn [fst snd] in *.
    rewrite compile_app, <- app_assoc. apply rel_follow. now apply IH.
  Qed.
  Lemma bfin_follow s : follow true (bprv_fin H s) (compile (fin_ops H (bp_gates s) ++ [OFlush])) [] (Some s).
  Proof. unfold bprv_fin. cbn. eexists. split; [reflexivity|]. eexists. split; [reflexivity|]. eexists. split; reflexivity. Qed.
  Lemma bprv_follow prog : forall s os p dl, bsched s prog = Some (os, p) -> seeds_are (p_chk (bp_gates s)) dl -> length dl = nchal os ->
    follow true (bprv_prog r0 r1 pM threads csz psz ope G H s prog) (compile (os ++ [OFlush])) dl (Some p).
  Proof.
    induction prog as [|[g|c] prog IH]; intros s os p dl E Sd Ld; cbn [BWireProofs.bsched bprv_prog] in *.
    - destruct (p_buf (bp_gates s)) eqn:Eb.
      + apply some2 in E; destruct E as [<- <-]. rewrite nchal_app, rel_nchal in Ld. destruct dl; [|discriminate].
        rewrite <- app_assoc, compile_app. apply rel_follow. apply (bfin_follow {| bp_gates := bp_gates s; bp_poly := batch (bp_poly s) |}).
      + destruct (prv_manage pM threads seeds (bp_gates s)) as [s1|] eqn:Em; [|discriminate]. apply some2 in E; destruct E as [<- <-].
        rewrite nchal_app, rel_nchal in Ld. rewrite <- !app_assoc, !compile_app. apply rel_follow.
        destruct dl as [|h [|]]; try discriminate. apply sd_head in Sd. destruct Sd as [Sd _].
        apply follow_chk with (s1 := s1) (seeds := seeds); auto. rewrite <- compile_app.
        apply (bfin_follow {| bp_gates := s1; bp_poly := batch (bp_poly s) |}).
    - destruct (full csz g (length (p_buf (bp_gates s)))) eqn:Ef.
      + destruct (prv_manage pM threads seeds (bp_gates s)) as [s1|] eqn:Em; [|discriminate].
        destruct (step (p_clear s1) g) as [s2|] eqn:Es; [|discriminate].
        destruct (bsched {| bp_gates := s2; bp_poly := bp_poly s |} prog) as [[os1 p1]|] eqn:E1; [|discriminate]. apply some2 in E; destruct E as [<- <-].
        rewrite <- !app_assoc, compile_app. destruct dl as [|h dl]; [discriminate|]. apply sd_head in Sd. destruct Sd as [Sh Sd].
        apply follow_chk with (s1 := s1) (seeds := seeds); auto. rewrite compile_app.
        apply follow_gate with (s2 := s2) (seeds := seeds); auto; [apply clear_not_full; lia|].
        apply IH; auto; cbn [bp_gates].
        * destruct (manage_facts pM threads seeds (bp_gates s) s1 Em) as (C1 & _).
          destruct (step_facts r0 r1 pM vK threads csz G Hth Hcsz seeds (p_clear s1) g s2 (clear_not_full csz s1 g ltac:(lia)) Es) as (C2 & _). cbn in C2. now rewrite C2, C1.
        * rewrite !nchal_app in Ld. cbn in Ld. unfold bit_ops in Ld. destruct (sends g); cbn in Ld; lia.
      + destruct (step (bp_gates s) g) as [s2|] eqn:Es; [|discriminate].
        destruct (bsched {| bp_gates := s2; bp_poly := bp_poly s |} prog) as [[os1 p1]|] eqn:E1; [|discriminate]. apply some2 in E; destruct E as [<- <-].
        rewrite <- !app_assoc, compile_app. apply follow_gate with (s2 := s2) (seeds := seeds); auto. apply IH; auto; cbn [bp_gates].
        * destruct (step_facts r0 r1 pM vK threads csz G Hth Hcsz seeds (bp_gates s) g s2 Ef Es) as (C2 & _). now rewrite C2.
        * rewrite !nchal_app in Ld. unfold bit_ops in Ld. destruct (sends g); cbn in Ld; lia.
    - set (its := prv_items (bcall_map (wire (p_wires (bp_gates s))) c)) in *.
      pose proof (isched_nchal psz rseeds ope its (bp_poly s)) as I0. pose proof (fun R k l dl res => @items_follow R its k l dl res (bp_poly s)) as F0.
      destruct (isched its (bp_poly s)) as [os1 q]. cbn [fst snd] in I0, F0.
      destruct (bsched {| bp_gates := bp_gates s; bp_poly := q |} prog) as [[os2 p1]|] eqn:E1; [|discriminate]. apply some2 in E; destruct E as [<- <-].
      rewrite <- app_assoc, compile_app. apply F0. apply IH; auto. rewrite nchal_app, I0 in Ld. exact Ld.
  Qed.
  (** ** what a state has produced so far is the beginning of the final messages *)
  Lemma bsched_prefix prog : forall s os p, bsched s prog = Some (os, p) ->
    prefix (p_bits (bp_gates s)) (p_bits (bp_gates p)) /\ prefix (p_msgs (bp_gates s)) (p_msgs (bp_gates p)) /\ prefix (pp_msgs (bp_poly s)) (pp_msgs (bp_poly p)).
  Proof.
    induction prog as [|[g|c] prog IH]; intros s os p E; cbn [BWireProofs.bsched] in E.
    - destruct (p_buf (bp_gates s)).
      + apply some2 in E; destruct E as [<- <-]. cbn [bp_gates bp_poly]. split; [apply prefix_refl|]. split; [apply prefix_refl|apply batch_prefix].
      + destruct (prv_manage pM threads seeds (bp_gates s)) as [s1|] eqn:Em; [|discriminate]. apply some2 in E; destruct E as [<- <-]. cbn [bp_gates bp_poly].
        destruct (manage_facts pM threads seeds (bp_gates s) s1 Em) as (_ & -> & _ & _ & A & -> & _). split; [apply prefix_refl|]. split; [now eexists|apply batch_prefix].
    - destruct (full csz g (length (p_buf (bp_gates s)))) eqn:Ef.
      + destruct (prv_manage pM threads seeds (bp_gates s)) as [s1|] eqn:Em; [|discriminate].
        destruct (step (p_clear s1) g) as [s2|] eqn:Es; [|discriminate].
        destruct (bsched {| bp_gates := s2; bp_poly := bp_poly s |} prog) as [[os1 p1]|] eqn:E1; [|discriminate]. apply some2 in E; destruct E as [<- <-].
        destruct (manage_facts pM threads seeds (bp_gates s) s1 Em) as (_ & B1 & _ & _ & A & M1 & _).
        destruct (step_facts r0 r1 pM vK threads csz G Hth Hcsz seeds (p_clear s1) g s2 (clear_not_full csz s1 g ltac:(lia)) Es) as (_ & M2 & (b & B2) & _).
        cbn [p_clear p_msgs p_bits] in M2, B2. destruct (IH _ _ _ E1) as (P1 & P2 & P3). cbn [bp_gates bp_poly] in *. rewrite B2, B1 in P1. rewrite M2, M1 in P2.
        split; [|split; [|exact P3]]; eapply prefix_trans; try eassumption; now eexists.
      + destruct (step (bp_gates s) g) as [s2|] eqn:Es; [|discriminate].
        destruct (bsched {| bp_gates := s2; bp_poly := bp_poly s |} prog) as [[os1 p1]|] eqn:E1; [|discriminate]. apply some2 in E; destruct E as [<- <-].
        destruct (step_facts r0 r1 pM vK threads csz G Hth Hcsz seeds (bp_gates s) g s2 Ef Es) as (_ & M2 & (b & B2) & _). destruct (IH _ _ _ E1) as (P1 & P2 & P3). cbn [bp_gates bp_poly] in *.
        rewrite B2 in P1. rewrite M2 in P2. split; [|split; [assumption|exact P3]]. eapply prefix_trans; try eassumption; now eexists.
    - set (its := prv_items (bcall_map (wire (p_wires (bp_gates s))) c)) in *.
      pose proof (isched_prefix psz rseeds ope its (bp_poly s)) as I0. destruct (isched its (bp_poly s)) as [os1 q]. cbn [snd] in I0.
      destruct (bsched {| bp_gates := bp_gates s; bp_poly := q |} prog) as [[os2 p1]|] eqn:E1; [|discriminate]. apply some2 in E; destruct E as [<- <-].
      destruct (IH _ _ _ E1) as (P1 & P2 & P3). cbn [bp_gates bp_poly] in *. split; [exact P1|]. split; [exact P2|]. eapply prefix_trans; eassumption.
  Qed.
  (** ** the verifier *)
  Section V.
    Variable relmsg : nat -> N * N.
    Notation vbatch := (pv_batch_check rseeds delta opek relmsg).
    (** the two relation buffers are equally long, and the same number of checks has been made *)
    Definition par (s : ppst) (v : pvst) : Prop := length (pv_buf v) = length (pp_buf s) /\ pv_chk v = pp_chk s /\ pp_chk s = length (pp_msgs s).
    Lemma par_batch s v : par s v -> par (batch s) (vbatch v).
    Proof.
      intros (L & C & M). unfold par, pp_batch_check, pv_batch_check. revert L. destruct (pp_buf s) eqn:Eb, (pv_buf v) eqn:Ev; try discriminate; intros _.
      - rewrite Eb, Ev. cbn. auto.
      - cbn [pp_buf pp_chk pp_msgs pv_buf pv_chk]. rewrite app_length. cbn. lia.
    Qed.
    Lemma par_push s v i j : par s v -> par (pp_push s i) (pv_push v j).
    Proof. intros (L & C & M). unfold par. cbn. rewrite !app_length. cbn. lia. Qed.
    Lemma vrel_follow {R : Type} s v (k : pvst -> proc (option R)) l dl res : par s v ->
      (forall i, nth_error (pp_msgs (batch s)) i <> None -> relmsg i = nth i (pp_msgs (batch s)) (0, 0)%N) ->
      follow false (k (vbatch v)) l dl res -> follow false (vrel_check delta opek rseeds v k) (compile (rel_ops s) ++ l) dl res.
    Proof.
      intros (L & C & M) Hm F. unfold vrel_check, BWireProofs.rel_ops. revert L. destruct (pp_buf s) as [|i b] eqn:Eb, (pv_buf v) as [|j b'] eqn:Ev; try discriminate; intros _.
      - unfold pv_batch_check in F. rewrite Ev in F. exact F.
      - destruct (batch_facts rseeds ope Hope s) as (A & M1 & _ & _ & A1 & A2); [now rewrite Eb|].
        assert (RA : relmsg (pv_chk v) = A).
        { rewrite C, M, Hm, M1; [now rewrite app_nth2, Nat.sub_diag by lia|]. rewrite M1, nth_error_app2, Nat.sub_diag by lia. discriminate. }
        assert (E : pv_batch_check rseeds delta opek (fun _ => dec2 (enc2 A)) v = vbatch v).
        { unfold pv_batch_check. rewrite Ev, RA, dec2_enc2 by assumption. reflexivity. }
        rewrite M1, last_last. set (x := enc_block (rseeds (pp_chk s))) in *. set (y := enc2 A) in *.
        cbn [compile flat_map compile1 app follow Bool.eqb].
        eexists. split; [reflexivity|]. eexists. split; [rewrite C; reflexivity|]. eexists. split; [reflexivity|].
        assert (Ly : length y = 32) by apply enc2_len. rewrite Ly. eexists. split; [reflexivity|]. cbn beta. rewrite E. exact F.
    Qed.
    Lemma vitems_follow {R : Type} its : forall its' s v (k : pvst -> proc (option R)) l dl res, length its' = length its -> par s v ->
      (forall i, nth_error (pp_msgs (snd (isched its s))) i <> None -> relmsg i = nth i (pp_msgs (snd (isched its s))) (0, 0)%N) ->
      (par (snd (isched its s)) (fold_left (pv_item psz rseeds delta opek relmsg) its' v) ->
       follow false (k (fold_left (pv_item psz rseeds delta opek relmsg) its' v)) l dl res) ->
      follow false (vrel_items delta psz opek rseeds its' v k) (compile (fst (isched its s)) ++ l) dl res.
    Proof.
      induction its as [|i r IH]; intros [|j r'] s v k l dl res Hl P Hm F; try discriminate; cbn [BWireProofs.isched vrel_items fold_left] in *; [now apply F|].
      injection Hl as Hl. pose proof P as (L & _). unfold pv_item at 2 in F. unfold pv_item at 3 in F. rewrite L in *.
      destruct (Nat.leb psz (length (pp_buf s))).
      - pose proof (isched_prefix psz rseeds ope r (pp_push (batch s) i)) as Pf.
        specialize (IH r' (pp_push (batch s) i) (pv_push (vbatch v) j)). destruct (isched r (pp_push (batch s) i)) as [os q]. cbn [fst snd] in *.
        rewrite compile_app, <- app_assoc. apply vrel_follow; [exact P| |].
        + intros n Hn. cbn [pp_push pp_msgs] in Pf. destruct Pf as [t Et]. rewrite Hm, Et.
          * apply app_nth1. now apply nth_error_Some.
          * rewrite Et, nth_error_app1; [exact Hn|now apply nth_error_Some].
        + apply IH; auto. now apply par_push, par_batch.
      - apply IH; auto. now apply par_push.
    Qed.
    Lemma bvfin_follow s v : follow false (bver_fin H v) (compile (fin_ops H s ++ [OFlush])) [] (Some (v, bv_finalize same_bytes H v (H (p_hash s)))).
    Proof. unfold bver_fin. cbn. eexists. split; [reflexivity|]. rewrite HH. eexists. split; [reflexivity|]. eexists. split; reflexivity. Qed.
  End V.
  Lemma items_len s v c : length (ver_items delta (bcall_map (wire (v_wires (bv_gates v))) c)) = length (prv_items (bcall_map (wire (p_wires (bp_gates s))) c)).
  Proof. destruct c; cbn [bcall_map ver_items prv_items]; rewrite ?map_length; reflexivity. Qed.
  Lemma prefix_rel (a b : list (N * N)) : prefix a b -> forall i, nth_error a i <> None -> nth i b (0, 0)%N = nth i a (0, 0)%N.
  Proof. intros [t ->] i Hi. apply app_nth1. now apply nth_error_Some. Qed.
  Lemma bver_follow (p : bprv) : let bitmsg := fun i => nth i (p_bits (bp_gates p)) false in let chkmsg := fun k => nth k (p_msgs (bp_gates p)) (0, 0)%N in
    let relmsg := fun k => nth k (pp_msgs (bp_poly p)) (0, 0)%N in
    forall prog s v vf os dl, bsched s prog = Some (os, p) ->
    length (v_buf (bv_gates v)) = length (p_buf (bp_gates s)) -> v_chk (bv_gates v) = p_chk (bp_gates s) -> v_chk (bv_gates v) = length (p_msgs (bp_gates s)) ->
    v_bits (bv_gates v) = length (p_bits (bp_gates s)) -> par (bp_poly s) (bv_poly v) ->
    match bv_run r0 r1 vK delta threads csz psz seeds rseeds opek bitmsg chkmsg relmsg v prog with
    | None => None
    | Some s => match ver_final vK delta threads seeds chkmsg (bv_gates s) with
                | None => None | Some g => Some {| bv_gates := g; bv_poly := pv_batch_check rseeds delta opek relmsg (bv_poly s) |} end
    end = Some vf ->
    seeds_are (p_chk (bp_gates s)) dl -> length dl = nchal os ->
    follow false (bver_prog r0 r1 vK delta threads csz psz opek rseeds G H v prog) (compile (os ++ [OFlush])) dl
      (Some (vf, bv_finalize same_bytes H vf (H (p_hash (bp_gates p))))).
  Proof.
    intros bitmsg chkmsg relmsg.
    induction prog as [|[g|c] prog IH]; intros s v vf os dl E I1 I2 I3 I4 Pr Ev Sd Ld; cbn [BWireProofs.bsched bver_prog bv_run] in *.
    - unfold ver_final in Ev. destruct (p_buf (bp_gates s)) eqn:Eb.
      + destruct (v_buf (bv_gates v)); [|discriminate]. injection Ev as <-. apply some2 in E; destruct E as [<- <-].
        rewrite nchal_app, rel_nchal in Ld. destruct dl; [|discriminate]. rewrite <- app_assoc, compile_app.
        apply vrel_follow with (relmsg := relmsg); [exact Pr|reflexivity|].
        apply (bvfin_follow (bp_gates s) {| bv_gates := bv_gates v; bv_poly := pv_batch_check rseeds delta opek relmsg (bv_poly v) |}).
      + destruct (v_buf (bv_gates v)) eqn:Evb; [discriminate|].
        destruct (prv_manage pM threads seeds (bp_gates s)) as [s1|] eqn:Em; [|discriminate]. apply some2 in E; destruct E as [<- <-].
        destruct (ver_manage vK delta threads seeds chkmsg (bv_gates v)) as [v1|] eqn:Evm; [|discriminate]. injection Ev as <-.
        destruct (manage_facts pM threads seeds (bp_gates s) s1 Em) as (_ & _ & _ & _ & A & M1 & A1 & A2).
        rewrite nchal_app, rel_nchal in Ld. rewrite <- !app_assoc, !compile_app.
        apply vrel_follow with (relmsg := relmsg); [exact Pr|reflexivity|].
        destruct dl as [|h [|]]; try discriminate. apply sd_head in Sd. destruct Sd as [Sd _].
        apply vfollow_chk with (chkmsg := chkmsg) (A := A) (v1 := v1) (seeds := seeds); auto; try (now rewrite I2).
        * unfold chkmsg. rewrite I3. cbn [bp_gates]. apply pfx_nth. rewrite M1. apply prefix_refl.
        * rewrite M1. apply last_last.
        * rewrite <- compile_app. apply (bvfin_follow s1 {| bv_gates := v1; bv_poly := pv_batch_check rseeds delta opek relmsg (bv_poly v) |}).
    - cbn [bv_step] in Ev. rewrite I1. destruct (full csz g (length (p_buf (bp_gates s)))) eqn:Ef.
      + destruct (prv_manage pM threads seeds (bp_gates s)) as [s1|] eqn:Em; [|discriminate].
        destruct (step (p_clear s1) g) as [s2|] eqn:Es; [|discriminate].
        destruct (bsched {| bp_gates := s2; bp_poly := bp_poly s |} prog) as [[os1 p1]|] eqn:E1; [|discriminate]. apply some2 in E; destruct E as [<- <-].
        destruct (manage_facts pM threads seeds (bp_gates s) s1 Em) as (C1 & B1 & _ & _ & A & M1 & A1 & A2).
        destruct (step_facts r0 r1 pM vK threads csz G Hth Hcsz seeds (p_clear s1) g s2 (clear_not_full csz s1 g ltac:(lia)) Es) as (C2 & M2 & (b & B2) & L2).
        cbn [p_clear p_msgs p_bits p_chk p_buf length] in C2, M2, B2, L2.
        destruct (bsched_prefix _ _ _ _ E1) as (P1 & P2 & _). cbn [bp_gates] in P1, P2.
        destruct (ver_manage vK delta threads seeds chkmsg (bv_gates v)) as [v1|] eqn:Evm.
        2:{ exfalso. unfold ver_manage in Evm. unfold prv_manage in Em. rewrite I1 in Evm. destruct (and_ranges threads (length (p_buf (bp_gates s)))); discriminate. }
        rewrite (vstep_full r0 r1 pM vK delta threads csz G Hth Hcsz seeds bitmsg chkmsg (bv_gates v) g v1) in Ev by (try assumption; now rewrite I1).
        destruct (ver_step r0 r1 vK delta threads csz seeds bitmsg chkmsg (v_clear v1) g) as [v2|] eqn:Evs; [|discriminate].
        destruct (vmanage_facts vK delta threads seeds chkmsg (bv_gates v) v1 Evm) as (VC1 & VB1 & _).
        destruct (vstep_facts r0 r1 pM vK delta threads csz G Hth Hcsz seeds bitmsg chkmsg (v_clear v1) g v2 (vclear_not_full csz v1 g ltac:(lia)) Evs) as (VC2 & VB2 & VL2).
        cbn [v_clear v_chk v_bits v_buf length] in VC2, VB2, VL2.
        rewrite <- !app_assoc, compile_app. destruct dl as [|h dl]; [discriminate|]. apply sd_head in Sd. destruct Sd as [Sh Sd].
        apply vfollow_chk with (chkmsg := chkmsg) (A := A) (v1 := v1) (seeds := seeds); auto; try (now rewrite I2).
        * unfold chkmsg. rewrite I3. apply pfx_nth. rewrite <- M1, <- M2. exact P2.
        * rewrite M1. apply last_last.
        * rewrite compile_app. apply vfollow_gate with (bitmsg := bitmsg) (chkmsg := chkmsg) (v2 := v2) (b := last (p_bits s2) false) (seeds := seeds); auto.
          -- apply vclear_not_full; lia.
          -- intro Hs. rewrite Hs in B2. rewrite B2, last_last. unfold bitmsg. cbn [v_clear v_bits]. rewrite VB1, I4, <- B1. apply pfx_nth. now rewrite <- B2.
          -- apply (IH {| bp_gates := s2; bp_poly := bp_poly s |} {| bv_gates := v2; bv_poly := bv_poly v |} vf os1 dl); auto; cbn [bp_gates bv_gates bp_poly bv_poly].
             ++ now rewrite VL2, L2.
             ++ now rewrite VC2, VC1, C2, C1, I2.
             ++ rewrite VC2, VC1, M2, M1, app_length, I3. cbn. lia.
             ++ rewrite VB2, VB1, B2, B1, app_length, I4. destruct (sends g); reflexivity.
             ++ now rewrite C2, C1.
             ++ rewrite !nchal_app in Ld. cbn in Ld. unfold bit_ops in Ld. destruct (sends g); cbn in Ld; lia.
      + destruct (step (bp_gates s) g) as [s2|] eqn:Es; [|discriminate].
        destruct (bsched {| bp_gates := s2; bp_poly := bp_poly s |} prog) as [[os1 p1]|] eqn:E1; [|discriminate]. apply some2 in E; destruct E as [<- <-].
        destruct (step_facts r0 r1 pM vK threads csz G Hth Hcsz seeds (bp_gates s) g s2 Ef Es) as (C2 & M2 & (b & B2) & L2). destruct (bsched_prefix _ _ _ _ E1) as (P1 & P2 & _). cbn [bp_gates] in P1, P2.
        destruct (ver_step r0 r1 vK delta threads csz seeds bitmsg chkmsg (bv_gates v) g) as [v2|] eqn:Evs; [|discriminate].
        destruct (vstep_facts r0 r1 pM vK delta threads csz G Hth Hcsz seeds bitmsg chkmsg (bv_gates v) g v2 ltac:(now rewrite I1) Evs) as (VC2 & VB2 & VL2).
        rewrite <- !app_assoc, compile_app.
        apply vfollow_gate with (bitmsg := bitmsg) (chkmsg := chkmsg) (v2 := v2) (b := last (p_bits s2) false) (seeds := seeds); auto.
        * now rewrite I1.
        * intro Hs. rewrite Hs in B2. rewrite B2, last_last. unfold bitmsg. rewrite I4. apply pfx_nth. now rewrite <- B2.
        * apply (IH {| bp_gates := s2; bp_poly := bp_poly s |} {| bv_gates := v2; bv_poly := bv_poly v |} vf os1 dl); auto; cbn [bp_gates bv_gates bp_poly bv_poly].
          -- now rewrite VL2, L2, I1.
          -- now rewrite VC2, C2, I2.
          -- now rewrite VC2, M2.
          -- rewrite VB2, B2, app_length, I4. destruct (sends g); reflexivity.
          -- now rewrite C2.
          -- rewrite !nchal_app in Ld. unfold bit_ops in Ld. destruct (sends g); cbn in Ld; lia.
    - cbn [bv_step] in Ev. pose proof (items_len s v c) as Li. unfold pv_call in Ev.
      set (its := prv_items (bcall_map (wire (p_wires (bp_gates s))) c)) in *. set (its' := ver_items delta (bcall_map (wire (v_wires (bv_gates v))) c)) in *.
      pose proof (isched_nchal psz rseeds ope its (bp_poly s)) as I0.
      pose proof (fun k l dl res => @vitems_follow relmsg (bver * bool) its its' (bp_poly s) (bv_poly v) k l dl res Li Pr) as F0.
      destruct (isched its (bp_poly s)) as [os1 q]. cbn [fst snd] in I0, F0.
      destruct (bsched {| bp_gates := bp_gates s; bp_poly := q |} prog) as [[os2 p1]|] eqn:E1; [|discriminate]. apply some2 in E; destruct E as [<- <-].
      destruct (bsched_prefix _ _ _ _ E1) as (_ & _ & P3). cbn [bp_poly] in P3.
      rewrite <- app_assoc, compile_app. apply F0.
      + intros i Hi. unfold relmsg. now apply prefix_rel.
      + intro Pq. apply (IH {| bp_gates := bp_gates s; bp_poly := q |} {| bv_gates := bv_gates v; bv_poly := fold_left (pv_item psz rseeds delta opek relmsg) its' (bv_poly v) |} vf os2 dl); auto.
        rewrite nchal_app, I0 in Ld. exact Ld.
  Qed.
End Follow.

Theorem bnet_session : forall bs br reset NB gs gr r0 r1 pM d threads csz psz ope rseeds G H prog,
  1 <= NB -> length gs = NB -> valid_delta d -> (forall l, length (H l) = 32) -> 1 <= threads -> threads <= csz -> 1 <= psz ->
  (forall k, length (ope k) = 128) -> (forall k, (rseeds k < 2 ^ 128)%N) -> wf_prog 0 prog = true -> all_hold (brels prog) = true ->
  count_and (gates_of prog) = 0 \/ threads <= last_batch csz (count_and (gates_of prog)) ->
  exists (bound : nat) (p : bprv) (v : bver), forall k n,
    nsteps bs br reset NB k (n_init NB gs gr (bprv_prog r0 r1 pM threads csz psz ope G H bp_init prog)
        (bver_prog r0 r1 (cot_key pM d) d threads csz psz (fun k => map (ot_key d) (ope k)) rseeds G H bv_init prog)) n ->
    k <= bound /\
    ((exists n', nstep bs br reset NB n n') \/
     (n_p n = PDone (Some p) /\ n_v n = PDone (Some (v, false)) /\ n_sr n = [] /\ n_rs n = [])) /\
    p_outs (bp_gates p) = bouts prog /\ v_outs (bv_gates v) = bouts prog.
Proof.
  intros bs br reset NB gs gr r0 r1 pM d threads csz psz ope rseeds G H prog HNB Hgs Hd HH Ht Hc Hp Ho Hr Wf Hold Hand.
  destruct (proj2 (bsess_defined r0 r1 pM threads csz psz (fun _ _ => 0%N) rseeds ope prog Ht Hc Wf) Hand) as [pz Hz].
  assert (RUN : forall sd p, bp_exec r0 r1 pM threads csz psz sd rseeds ope prog = Some p ->
    exists os, bsched r0 r1 pM threads csz psz rseeds ope H sd bp_init prog = Some (os, p)).
  { intros sd p E. apply bsched_run; auto. }
  destruct (RUN _ pz Hz) as [os0 E0].
  set (dg := dgs bs reset NB gs os0). set (seeds := fun k : nat => G (nth k dg [])).
  destruct (proj2 (bsess_defined r0 r1 pM threads csz psz seeds rseeds ope prog Ht Hc Wf) Hand) as [p Hpx].
  destruct (RUN _ p Hpx) as [os E].
  assert (Edg : dgs bs reset NB gs os = dg).
  { destruct (bsched_alike r0 r1 pM threads csz psz rseeds ope H Ht Hc Ho Hr (fun _ _ => 0%N) seeds prog bp_init bp_init os0 pz) as (os' & p' & E' & Sh & B); auto.
    { repeat split; reflexivity. }
    rewrite E in E'. apply some2 in E'. destruct E' as [<- <-]. symmetry. now apply dgs_shape. }
  assert (Sd : seeds_are G seeds 0 dg).
  { intros i h Hi. cbn [Nat.add]. unfold seeds. now rewrite (nth_error_nth _ _ [] Hi). }
  assert (Ld : length dg = nchal os) by (rewrite <- Edg; apply dgs_len).
  destruct (bsess_complete r0 r1 pM threads csz psz seeds rseeds ope (list N) same_bytes H prog p d same_bytes_refl Hd Hp Ho Wf Hold Hpx) as (v & Hv & O1 & O2 & Fz).
  assert (FP : follow true (bprv_prog r0 r1 pM threads csz psz ope G H bp_init prog) (compile (os ++ [OFlush])) dg (Some p)).
  { eapply bprv_follow; try exact E; auto. }
  assert (FV : follow false (bver_prog r0 r1 (cot_key pM d) d threads csz psz (fun k => map (ot_key d) (ope k)) rseeds G H bv_init prog) (compile (os ++ [OFlush])) dg
                 (Some (v, bv_finalize same_bytes H v (H (p_hash (bp_gates p)))))).
  { eapply bver_follow; try exact E; auto. repeat split; reflexivity. }
  rewrite Fz in FV. rewrite <- Edg in FP, FV.
  exists (2 * length (compile (os ++ [OFlush]))), p, v. intros k n Hn.
  destruct (net_run bs br reset NB HNB gs gr os Hgs (bsched_no_bare r0 r1 pM threads csz psz rseeds ope H seeds prog _ _ _ E) _ _ _ _ FP FV k n Hn) as [A B].
  auto.
Qed.
