(** The calls of the boolean engine on the shared endpoint follow the schedule of the honest prover's run, one call at a time. *)
From Coq Require Import NArith List Bool Arith Lia.
From Verif Require Import Word WordProofs GF128 GF128Ring BoolModel BoolSpec BoolProofs BoolAlg BoolThms BoolThms2 BoolIOModel BoolIOSpec BoolIOProofs
  BoolIOThms BoolIOThms2 HideProofs BoolPolyModel BoolPolySpec BSessModel BSessSpec BSessProofs BSessThms WireModel WireNet WireProofs BWireModel BWireProofs BWireThms XWireModel.
Import ListNotations.

Lemma pfx_at {A} (a b : list A) d x : prefix (a ++ [x]) b -> nth (length a) b d = x.
Proof. intros [t ->]. rewrite <- app_assoc. cbn [app]. now rewrite app_nth2, Nat.sub_diag by (clear; lia). Qed.

Lemma par_add s v i j : par s v -> par (pp_push s i) (pv_push v j).
Proof. intros (L & C & M). unfold par. cbn. rewrite !app_length. cbn. clear - L C M. lia. Qed.

Lemma par_check rseeds ope delta opek relmsg s v : par s v -> par (pp_batch_check rseeds ope s) (pv_batch_check rseeds delta opek relmsg v).
Proof.
  intros (L & C & M). unfold par, pp_batch_check, pv_batch_check. revert L. destruct (pp_buf s) eqn:Eb, (pv_buf v) eqn:Ev; try discriminate; intros _.
  - rewrite Eb, Ev. cbn. auto.
  - cbn [pp_buf pp_chk pp_msgs pv_buf pv_chk]. rewrite app_length. cbn. clear - C M. lia.
Qed.

Section Sched.
  Variables (r0 r1 : N) (pM : nat -> N) (threads csz psz : nat) (rseeds : nat -> N) (ope : nat -> list N) (H : list N -> list N).
  Hypothesis Hth : 1 <= threads.
  Hypothesis Hcsz : threads <= csz.
  Notation batch := (pp_batch_check rseeds ope).
  Notation rel_ops := (rel_ops rseeds ope).
  Notation isched := (isched psz rseeds ope).
  Section S.
    Variable sd : nat -> nat -> N.
    Notation step := (prv_step r0 r1 pM threads csz sd).
    Definition bop_ops (s : bprv) (o : bop) : list op :=
      match o with
      | OGate g =>
          if full csz g (length (p_buf (bp_gates s))) then
            match prv_manage pM threads sd (bp_gates s) with
            | None => []
            | Some s1 => chk_ops s1 ++ match step (p_clear s1) g with None => [] | Some s2 => bit_ops g s2 end
            end
          else match step (bp_gates s) g with None => [] | Some s2 => bit_ops g s2 end
      | OPoly c => fst (isched (prv_items (bcall_map (wire (p_wires (bp_gates s))) c)) (bp_poly s))
      end.
    Definition bend_ops (s : bprv) : list op :=
      rel_ops (bp_poly s) ++
      match p_buf (bp_gates s) with
      | [] => fin_ops H (bp_gates s)
      | _ => match prv_manage pM threads sd (bp_gates s) with None => [] | Some g => chk_ops g ++ fin_ops H g end
      end.
    Definition bfinal (s : bprv) : option bprv :=
      match prv_final pM threads sd (bp_gates s) with None => None | Some p => Some {| bp_gates := p; bp_poly := batch (bp_poly s) |} end.
    Lemma no_bare_app a b : no_bare_hash a -> no_bare_hash b -> no_bare_hash (a ++ b).
    Proof. intros; now apply Forall_app. Qed.
    Lemma bit_no_bare g s : no_bare_hash (bit_ops g s).
    Proof. unfold bit_ops. destruct (sends g); repeat constructor. Qed.
    Lemma bop_no_bare s o : no_bare_hash (bop_ops s o).
    Proof.
      destruct o as [g|c]; cbn [bop_ops]; [|apply isched_no_bare]. destruct (full csz g (length (p_buf (bp_gates s)))).
      - destruct (prv_manage pM threads sd (bp_gates s)) as [s1|]; [|constructor]. apply no_bare_app; [repeat constructor|].
        destruct (step (p_clear s1) g); [apply bit_no_bare|constructor].
      - destruct (step (bp_gates s) g); [apply bit_no_bare|constructor].
    Qed.
    Lemma bend_no_bare s : no_bare_hash (bend_ops s).
    Proof.
      unfold bend_ops. apply no_bare_app; [apply rel_no_bare|]. destruct (p_buf (bp_gates s)); [repeat constructor|].
      destruct (prv_manage pM threads sd (bp_gates s)); [|constructor]. apply no_bare_app; repeat constructor.
    Qed.
  End S.
  Lemma shape_refl l : Forall2 same_shape l l.
  Proof. induction l as [|o l IH]; constructor; [destruct o; cbn; auto|exact IH]. Qed.
  Definition balike (s s' : bprv) : Prop := alike (bp_gates s) (bp_gates s') /\ bp_poly s = bp_poly s'.
  Lemma bop_alike sd sd' s s' o s2 : balike s s' -> bp_step r0 r1 pM threads csz psz sd rseeds ope s o = Some s2 ->
    exists s2', bp_step r0 r1 pM threads csz psz sd' rseeds ope s' o = Some s2' /\ balike s2 s2' /\
      Forall2 same_shape (bop_ops sd s o) (bop_ops sd' s' o) /\ bits_of (bop_ops sd s o) = bits_of (bop_ops sd' s' o).
  Proof.
    intros [Al Ep] E. destruct o as [g|c]; cbn [bp_step bop_ops] in *; pose proof Al as (A1 & A2 & _); rewrite <- ?A2, <- ?Ep.
    - destruct (full csz g (length (p_buf (bp_gates s)))) eqn:Ef.
      + destruct (prv_manage pM threads sd (bp_gates s)) as [s1|] eqn:Em.
        2:{ rewrite (step_full_none r0 r1 pM threads csz sd (bp_gates s) g Ef Em) in E. discriminate. }
        rewrite (step_full r0 r1 pM threads csz Hth Hcsz sd (bp_gates s) g s1 Ef Em) in E.
        destruct (prv_step r0 r1 pM threads csz sd (p_clear s1) g) as [g2|] eqn:Es; [|discriminate]. injection E as <-.
        destruct (alike_manage pM threads sd sd' _ _ s1 Al Em) as (s1' & Em' & Al1). apply alike_clear in Al1.
        destruct (alike_step r0 r1 pM threads csz sd _ _ g g2 (clear_not_full csz s1 g ltac:(lia)) Al1 Es) as (g2' & Es' & Al2).
        rewrite (step_seeds r0 r1 pM threads csz sd sd') in Es' by (apply clear_not_full; lia).
        assert (Ef' : full csz g (length (p_buf (bp_gates s'))) = true) by (now rewrite <- A2).
        rewrite (step_full r0 r1 pM threads csz Hth Hcsz sd' (bp_gates s') g s1' Ef' Em'), Em', Es'. eexists. split; [reflexivity|].
        split; [split; [exact Al2|reflexivity]|]. destruct Al2 as (_ & _ & _ & _ & _ & Hb & _). split.
        * apply Forall2_app; [apply chk_shape|]. unfold bit_ops. rewrite Hb. apply shape_refl.
        * rewrite !bits_of_app. unfold bit_ops. now rewrite Hb.
      + destruct (prv_step r0 r1 pM threads csz sd (bp_gates s) g) as [g2|] eqn:Es; [|discriminate]. injection E as <-.
        destruct (alike_step r0 r1 pM threads csz sd _ _ g g2 Ef Al Es) as (g2' & Es' & Al2).
        rewrite (step_seeds r0 r1 pM threads csz sd sd') in Es' by (now rewrite <- A2). rewrite Es'. eexists. split; [reflexivity|].
        split; [split; [exact Al2|reflexivity]|]. destruct Al2 as (_ & _ & _ & _ & _ & Hb & _). unfold bit_ops. rewrite Hb. split; [apply shape_refl|reflexivity].
    - injection E as <-. rewrite <- A1. eexists. split; [reflexivity|]. split; [split; [exact Al|reflexivity]|]. split; [apply shape_refl|reflexivity].
  Qed.
  Lemma bend_alike sd sd' s s' p : balike s s' -> bfinal sd s = Some p -> (exists p', bfinal sd' s' = Some p') /\
    Forall2 same_shape (bend_ops sd s) (bend_ops sd' s') /\ bits_of (bend_ops sd s) = bits_of (bend_ops sd' s').
  Proof.
    intros [Al Ep] E. pose proof Al as (A1 & A2 & _). unfold bfinal, bend_ops, prv_final in *. rewrite <- A2, <- Ep.
    destruct (p_buf (bp_gates s)) eqn:Eb.
    - split; [eauto|]. split; [apply Forall2_app; [apply shape_refl|repeat constructor]|rewrite !bits_of_app; reflexivity].
    - destruct (prv_manage pM threads sd (bp_gates s)) as [s1|] eqn:Em; [|discriminate].
      destruct (alike_manage pM threads sd sd' _ _ s1 Al Em) as (s1' & -> & _). split; [eauto|].
      split; [apply Forall2_app; [apply shape_refl|repeat constructor]|rewrite !bits_of_app; reflexivity].
  Qed.
End Sched.

Section Follow.
  Variables (r0 r1 : N) (pM vK : nat -> N) (delta : N) (threads csz psz : nat) (ope opek : nat -> list N) (rseeds : nat -> N).
  Variables (G : list N -> nat -> N) (H : list N -> list N).
  Hypothesis Hth : 1 <= threads.
  Hypothesis Hcsz : threads <= csz.
  Hypothesis HH : forall l, length (H l) = 32.
  Hypothesis Hope : forall k, length (ope k) = 128.
  Hypothesis Hrs : forall k, (rseeds k < 2 ^ 128)%N.
  Variable seeds : nat -> nat -> N.
  Notation batch := (pp_batch_check rseeds ope).
  Notation step := (prv_step r0 r1 pM threads csz seeds).
  Notation bstep := (bp_step r0 r1 pM threads csz psz seeds rseeds ope).
  Notation ops := (bop_ops r0 r1 pM threads csz psz rseeds ope seeds).
  Notation eops := (bend_ops pM threads rseeds ope H seeds).
  Notation final := (bfinal pM threads rseeds ope seeds).
  Notation pbool := (xp_bool r0 r1 pM threads csz psz ope G).
  Notation pbool_end := (xp_bool_end pM threads ope G H).
  (** the challenges of a call are the next entries of [dl] *)
  Notation sds := (seeds_are G seeds).
  Lemma sds_head k h dl : sds k (h :: dl) -> seeds k = G h /\ sds (S k) dl.
  Proof. exact (WireProofs.seeds_head pM vK threads csz G H Hth Hcsz HH seeds k h dl). Qed.
  Lemma bit_nchal g s : nchal (bit_ops g s) = 0.
  Proof. unfold bit_ops. now destruct (sends g). Qed.
  Lemma bop_chk s o s2 : bstep s o = Some s2 -> p_chk (bp_gates s2) = p_chk (bp_gates s) + nchal (ops s o).
  Proof.
    intro E. destruct o as [g|c]; cbn [bp_step bop_ops] in *.
    - destruct (full csz g (length (p_buf (bp_gates s)))) eqn:Ef.
      + destruct (prv_manage pM threads seeds (bp_gates s)) as [s1|] eqn:Em.
        2:{ rewrite (step_full_none r0 r1 pM threads csz seeds (bp_gates s) g Ef Em) in E. discriminate. }
        rewrite (step_full r0 r1 pM threads csz Hth Hcsz seeds (bp_gates s) g s1 Ef Em) in E.
        destruct (step (p_clear s1) g) as [g2|] eqn:Es; [|discriminate]. injection E as <-. cbn [bp_gates].
        destruct (manage_facts pM threads seeds (bp_gates s) s1 Em) as (C1 & _).
        destruct (step_facts r0 r1 pM vK threads csz G Hth Hcsz seeds (p_clear s1) g g2 (clear_not_full csz s1 g ltac:(lia)) Es) as (C2 & _). cbn [p_clear p_chk] in C2.
        rewrite C2, C1, nchal_app, bit_nchal. cbn [chk_ops nchal]. lia.
      + destruct (step (bp_gates s) g) as [g2|] eqn:Es; [|discriminate]. injection E as <-. cbn [bp_gates].
        destruct (step_facts r0 r1 pM vK threads csz G Hth Hcsz seeds (bp_gates s) g g2 Ef Es) as (C2 & _). rewrite C2, bit_nchal. lia.
    - injection E as <-. cbn [bp_gates]. rewrite isched_nchal. lia.
  Qed.
  (** ** the prover *)
  Lemma pb_op {R : Type} s o s2 (k : bprv -> proc (option R)) l dl res : bstep s o = Some s2 -> sds (p_chk (bp_gates s)) dl -> nchal (ops s o) <= length dl ->
    follow true (k s2) l (skipn (nchal (ops s o)) dl) res -> follow true (pbool s o k) (compile (ops s o) ++ l) dl res.
  Proof.
    intros E Sd Ld F. destruct o as [g|c]; cbn [bp_step bop_ops xp_bool] in *.
    - destruct (full csz g (length (p_buf (bp_gates s)))) eqn:Ef.
      + destruct (prv_manage pM threads seeds (bp_gates s)) as [s1|] eqn:Em.
        2:{ rewrite (step_full_none r0 r1 pM threads csz seeds (bp_gates s) g Ef Em) in E. discriminate. }
        rewrite (step_full r0 r1 pM threads csz Hth Hcsz seeds (bp_gates s) g s1 Ef Em) in E.
        destruct (step (p_clear s1) g) as [g2|] eqn:Es; [|discriminate]. injection E as <-.
        rewrite nchal_app, bit_nchal in Ld, F. cbn [chk_ops nchal] in Ld, F. destruct dl as [|h dl]; [cbn in Ld; lia|]. cbn [Nat.add skipn] in F.
        apply sds_head in Sd. destruct Sd as [Sd _]. rewrite compile_app, <- app_assoc.
        apply follow_chk with (s1 := s1) (seeds := seeds); auto.
        apply follow_gate with (s2 := g2) (seeds := seeds); auto; apply clear_not_full; lia.
      + destruct (step (bp_gates s) g) as [g2|] eqn:Es; [|discriminate]. injection E as <-. rewrite bit_nchal in F. cbn [skipn] in F.
        apply follow_gate with (s2 := g2) (seeds := seeds); auto.
    - injection E as <-. rewrite isched_nchal in F. cbn [skipn] in F. unfold pp_call in F. rewrite <- isched_fold in F.
      apply items_follow; auto.
  Qed.
  Lemma pb_end {R : Type} s p (k : bprv -> proc (option R)) l dl res : final s = Some p -> sds (p_chk (bp_gates s)) dl -> nchal (eops s) <= length dl ->
    follow true (k p) l (skipn (nchal (eops s)) dl) res -> follow true (pbool_end s k) (compile (eops s) ++ l) dl res.
  Proof.
    intros E Sd Ld F. unfold xp_bool_end, bend_ops, bfinal, prv_final in *. rewrite nchal_app, rel_nchal in Ld, F. cbn [Nat.add] in Ld, F.
    rewrite compile_app, <- app_assoc. apply rel_follow; auto. cbv zeta.
    assert (D : forall g dl, follow true (k {| bp_gates := g; bp_poly := batch (bp_poly s) |}) l dl res ->
      follow true (PAlign true (PPut (H (p_hash g)) (k {| bp_gates := g; bp_poly := batch (bp_poly s) |}))) (compile (fin_ops H g) ++ l) dl res).
    { intros g dl0 Fg. unfold fin_ops. set (y := H (p_hash g)). cbn [compile flat_map compile1 app follow Bool.eqb].
      eexists. split; [reflexivity|]. eexists. split; [reflexivity|]. exact Fg. }
    destruct (p_buf (bp_gates s)).
    - injection E as <-. cbn [nchal fin_ops skipn] in F. now apply D.
    - destruct (prv_manage pM threads seeds (bp_gates s)) as [s1|] eqn:Em; [|discriminate]. injection E as <-.
      rewrite nchal_app in Ld, F. cbn [chk_ops fin_ops nchal Nat.add] in Ld, F. destruct dl as [|h dl]; [cbn in Ld; lia|]. cbn [skipn] in F.
      apply sds_head in Sd. destruct Sd as [Sd _]. rewrite compile_app, <- app_assoc. apply follow_chk with (s1 := s1) (seeds := seeds); auto.
  Qed.
  (** ** what a state has produced so far is the beginning of the later messages *)
  Definition bpre (s p : bprv) : Prop := prefix (p_bits (bp_gates s)) (p_bits (bp_gates p)) /\ prefix (p_msgs (bp_gates s)) (p_msgs (bp_gates p)) /\
    prefix (pp_msgs (bp_poly s)) (pp_msgs (bp_poly p)).
  Lemma bpre_refl s : bpre s s.
  Proof. repeat split; apply prefix_refl. Qed.
  Lemma bpre_trans a b c : bpre a b -> bpre b c -> bpre a c.
  Proof. intros (A & B & C) (D & E & F). split; [|split]; eapply prefix_trans; eassumption. Qed.
  Lemma bop_pre s o s2 : bstep s o = Some s2 -> bpre s s2.
  Proof.
    intro E. destruct o as [g|c]; cbn [bp_step] in E.
    - destruct (full csz g (length (p_buf (bp_gates s)))) eqn:Ef.
      + destruct (prv_manage pM threads seeds (bp_gates s)) as [s1|] eqn:Em.
        2:{ rewrite (step_full_none r0 r1 pM threads csz seeds (bp_gates s) g Ef Em) in E. discriminate. }
        rewrite (step_full r0 r1 pM threads csz Hth Hcsz seeds (bp_gates s) g s1 Ef Em) in E.
        destruct (step (p_clear s1) g) as [g2|] eqn:Es; [|discriminate]. injection E as <-. unfold bpre. cbn [bp_gates bp_poly].
        destruct (manage_facts pM threads seeds (bp_gates s) s1 Em) as (_ & B1 & _ & _ & A & M1 & _).
        destruct (step_facts r0 r1 pM vK threads csz G Hth Hcsz seeds (p_clear s1) g g2 (clear_not_full csz s1 g ltac:(lia)) Es) as (_ & M2 & (b & B2) & _).
        cbn [p_clear p_msgs p_bits] in M2, B2. rewrite B2, B1, M2, M1. split; [now eexists|]. split; [now eexists|apply prefix_refl].
      + destruct (step (bp_gates s) g) as [g2|] eqn:Es; [|discriminate]. injection E as <-. unfold bpre. cbn [bp_gates bp_poly].
        destruct (step_facts r0 r1 pM vK threads csz G Hth Hcsz seeds (bp_gates s) g g2 Ef Es) as (_ & M2 & (b & B2) & _).
        rewrite B2, M2. split; [now eexists|]. split; apply prefix_refl.
    - injection E as <-. unfold bpre, pp_call. cbn [bp_gates bp_poly]. rewrite <- isched_fold. split; [apply prefix_refl|]. split; [apply prefix_refl|apply isched_prefix].
  Qed.
  Lemma bend_pre s p : final s = Some p -> bpre s p.
  Proof.
    intro E. unfold bfinal, prv_final in E. destruct (p_buf (bp_gates s)).
    - injection E as <-. unfold bpre. cbn [bp_gates bp_poly]. split; [apply prefix_refl|]. split; [apply prefix_refl|apply batch_prefix].
    - destruct (prv_manage pM threads seeds (bp_gates s)) as [s1|] eqn:Em; [|discriminate]. injection E as <-. unfold bpre. cbn [bp_gates bp_poly].
      destruct (manage_facts pM threads seeds (bp_gates s) s1 Em) as (_ & -> & _ & _ & A & -> & _). split; [apply prefix_refl|]. split; [now eexists|apply batch_prefix].
  Qed.
  (** ** the verifier *)
  Variable p : bprv.
  Notation bitmsg := (fun i => nth i (p_bits (bp_gates p)) false).
  Notation chkmsg := (fun k => nth k (p_msgs (bp_gates p)) (0, 0)%N).
  Notation relmsg := (fun k => nth k (pp_msgs (bp_poly p)) (0, 0)%N).
  Notation vstep := (bv_step r0 r1 vK delta threads csz psz seeds rseeds opek bitmsg chkmsg relmsg).
  Notation vbool := (xv_bool r0 r1 vK delta threads csz psz opek rseeds G).
  Notation vbool_end := (xv_bool_end vK delta threads opek rseeds G H).
  Record binv (s : bprv) (v : bver) : Prop := {
    bi_buf : length (v_buf (bv_gates v)) = length (p_buf (bp_gates s)); bi_chk : v_chk (bv_gates v) = p_chk (bp_gates s);
    bi_msgs : v_chk (bv_gates v) = length (p_msgs (bp_gates s)); bi_bits : v_bits (bv_gates v) = length (p_bits (bp_gates s));
    bi_par : par (bp_poly s) (bv_poly v) }.
  Lemma par_items its : forall its' q w, length its' = length its -> par q w ->
    par (snd (isched psz rseeds ope its q)) (fold_left (pv_item psz rseeds delta opek relmsg) its' w).
  Proof.
    induction its as [|i r IH]; intros [|j r'] q w Li Pr; try discriminate; cbn [isched fold_left] in *; [exact Pr|].
    injection Li as Li. pose proof Pr as (L & _). unfold pv_item at 2. rewrite L. destruct (Nat.leb psz (length (pp_buf q))).
    - specialize (IH r' (pp_push (batch q) i) (pv_push (pv_batch_check rseeds delta opek relmsg w) j) Li).
      destruct (isched psz rseeds ope r (pp_push (batch q) i)) as [os q2]. cbn [snd] in *. apply IH. apply par_add. now apply par_check.
    - apply (IH r' (pp_push q i) (pv_push w j) Li). now apply par_add.
  Qed.
  Lemma vb_op {R : Type} s v o s2 v2 (k : bver -> proc (option R)) l dl res : binv s v -> bstep s o = Some s2 -> vstep v o = Some v2 -> bpre s2 p ->
    sds (p_chk (bp_gates s)) dl -> nchal (ops s o) <= length dl ->
    binv s2 v2 /\ (follow false (k v2) l (skipn (nchal (ops s o)) dl) res -> follow false (vbool v o k) (compile (ops s o) ++ l) dl res).
  Proof.
    intros [I1 I2 I3 I4 Pr] E Ev (P1 & P2 & P3) Sd Ld. destruct o as [g|c]; cbn [bp_step bv_step bop_ops xv_bool] in *.
    - rewrite I1. destruct (full csz g (length (p_buf (bp_gates s)))) eqn:Ef.
      + destruct (prv_manage pM threads seeds (bp_gates s)) as [s1|] eqn:Em.
        2:{ rewrite (step_full_none r0 r1 pM threads csz seeds (bp_gates s) g Ef Em) in E. discriminate. }
        rewrite (step_full r0 r1 pM threads csz Hth Hcsz seeds (bp_gates s) g s1 Ef Em) in E.
        destruct (step (p_clear s1) g) as [g2|] eqn:Es; [|discriminate]. injection E as <-. cbn [bp_gates bp_poly] in *.
        destruct (manage_facts pM threads seeds (bp_gates s) s1 Em) as (C1 & B1 & _ & _ & A & M1 & A1 & A2).
        destruct (step_facts r0 r1 pM vK threads csz G Hth Hcsz seeds (p_clear s1) g g2 (clear_not_full csz s1 g ltac:(lia)) Es) as (C2 & M2 & (b & B2) & L2).
        cbn [p_clear p_msgs p_bits p_chk p_buf length] in C2, M2, B2, L2.
        destruct (ver_manage vK delta threads seeds chkmsg (bv_gates v)) as [v1|] eqn:Evm.
        2:{ exfalso. unfold ver_manage in Evm. unfold prv_manage in Em. rewrite I1 in Evm. destruct (and_ranges threads (length (p_buf (bp_gates s)))); discriminate. }
        rewrite (vstep_full r0 r1 pM vK delta threads csz G Hth Hcsz seeds bitmsg chkmsg (bv_gates v) g v1) in Ev by (try assumption; now rewrite I1).
        destruct (ver_step r0 r1 vK delta threads csz seeds bitmsg chkmsg (v_clear v1) g) as [g2'|] eqn:Evs; [|discriminate]. injection Ev as <-.
        destruct (vmanage_facts vK delta threads seeds chkmsg (bv_gates v) v1 Evm) as (VC1 & VB1 & _).
        destruct (vstep_facts r0 r1 pM vK delta threads csz G Hth Hcsz seeds bitmsg chkmsg (v_clear v1) g g2' (vclear_not_full csz v1 g ltac:(lia)) Evs) as (VC2 & VB2 & VL2).
        cbn [v_clear v_chk v_bits v_buf length] in VC2, VB2, VL2. split.
        * constructor; cbn [bp_gates bv_gates bp_poly bv_poly]; auto.
          -- now rewrite VL2, L2.
          -- now rewrite VC2, VC1, C2, C1, I2.
          -- rewrite VC2, VC1, M2, M1, app_length, I3. cbn. lia.
          -- rewrite VB2, VB1, B2, B1, app_length, I4. destruct (sends g); reflexivity.
        * intro F. rewrite nchal_app, bit_nchal in Ld, F. cbn [chk_ops nchal Nat.add] in Ld, F. destruct dl as [|h dl]; [cbn in Ld; lia|]. cbn [skipn] in F.
          apply sds_head in Sd. destruct Sd as [Sd _]. rewrite compile_app, <- app_assoc.
          apply vfollow_chk with (chkmsg := chkmsg) (A := A) (v1 := v1) (seeds := seeds); auto; try (now rewrite I2).
          -- rewrite I3. apply pfx_at. rewrite <- M1, <- M2. exact P2.
          -- rewrite M1. apply last_last.
          -- apply vfollow_gate with (bitmsg := bitmsg) (chkmsg := chkmsg) (v2 := g2') (b := last (p_bits g2) false) (seeds := seeds); auto.
             ++ apply vclear_not_full; lia.
             ++ intro Hs. rewrite Hs in B2. rewrite B2, last_last. cbn [v_clear v_bits]. rewrite VB1, I4, <- B1. apply pfx_at. now rewrite <- B2.
      + destruct (step (bp_gates s) g) as [g2|] eqn:Es; [|discriminate]. injection E as <-. cbn [bp_gates bp_poly] in *.
        destruct (step_facts r0 r1 pM vK threads csz G Hth Hcsz seeds (bp_gates s) g g2 Ef Es) as (C2 & M2 & (b & B2) & L2).
        destruct (ver_step r0 r1 vK delta threads csz seeds bitmsg chkmsg (bv_gates v) g) as [g2'|] eqn:Evs; [|discriminate]. injection Ev as <-.
        destruct (vstep_facts r0 r1 pM vK delta threads csz G Hth Hcsz seeds bitmsg chkmsg (bv_gates v) g g2' ltac:(now rewrite I1) Evs) as (VC2 & VB2 & VL2). split.
        * constructor; cbn [bp_gates bv_gates bp_poly bv_poly]; auto.
          -- now rewrite VL2, L2, I1.
          -- now rewrite VC2, C2, I2.
          -- now rewrite VC2, M2.
          -- rewrite VB2, B2, app_length, I4. destruct (sends g); reflexivity.
        * intro F. rewrite bit_nchal in F. cbn [skipn] in F.
          apply vfollow_gate with (bitmsg := bitmsg) (chkmsg := chkmsg) (v2 := g2') (b := last (p_bits g2) false) (seeds := seeds); auto.
          -- now rewrite I1.
          -- intro Hs. rewrite Hs in B2. rewrite B2, last_last. rewrite I4. apply pfx_at. now rewrite <- B2.
    - injection E as <-. injection Ev as <-. pose proof (items_len delta s v c) as Li. unfold pp_call, pv_call in *. rewrite <- isched_fold in *.
      set (its := prv_items (bcall_map (wire (p_wires (bp_gates s))) c)) in *. set (its' := ver_items delta (bcall_map (wire (v_wires (bv_gates v))) c)) in *.
      cbn [bp_gates bp_poly] in *. rewrite isched_nchal. cbn [skipn].
      assert (Hm : forall i, nth_error (pp_msgs (snd (isched psz rseeds ope its (bp_poly s)))) i <> None -> relmsg i = nth i (pp_msgs (snd (isched psz rseeds ope its (bp_poly s)))) (0, 0)%N).
      { intros i Hi. destruct P3 as [t Et]. rewrite Et. apply app_nth1. now apply nth_error_Some. }
      assert (Pq : par (snd (isched psz rseeds ope its (bp_poly s))) (fold_left (pv_item psz rseeds delta opek relmsg) its' (bv_poly v))).
      { now apply par_items. }
      split; [constructor; auto|]. intro F. apply vitems_follow with (relmsg := relmsg) (threads := threads) (csz := csz) (H := H); auto.
  Qed.
  Lemma vb_end {R : Type} s v vf (k : bver -> bool -> proc (option R)) l dl res : binv s v -> final s = Some p ->
    match ver_final vK delta threads seeds chkmsg (bv_gates v) with
    | None => None | Some g => Some {| bv_gates := g; bv_poly := pv_batch_check rseeds delta opek relmsg (bv_poly v) |} end = Some vf ->
    sds (p_chk (bp_gates s)) dl -> nchal (eops s) <= length dl ->
    follow false (k vf (bv_finalize same_bytes H vf (H (p_hash (bp_gates p))))) l (skipn (nchal (eops s)) dl) res ->
    follow false (vbool_end v k) (compile (eops s) ++ l) dl res.
  Proof.
    intros [I1 I2 I3 I4 Pr] E Ev Sd Ld F. unfold xv_bool_end, bend_ops. unfold bend_ops in Ld, F. rewrite nchal_app, rel_nchal in Ld, F. cbn [Nat.add] in Ld, F.
    unfold bfinal, prv_final in E. unfold ver_final in Ev.
    assert (Pm : pp_msgs (bp_poly p) = pp_msgs (batch (bp_poly s))).
    { destruct (p_buf (bp_gates s)); [injection E as <-; reflexivity|]. destruct (prv_manage pM threads seeds (bp_gates s)); [|discriminate]. injection E as <-. reflexivity. }
    rewrite compile_app, <- app_assoc. apply vrel_follow with (relmsg := relmsg) (threads := threads) (csz := csz) (H := H); auto.
    { intros i Hi. cbn beta. now rewrite Pm. }
    cbv zeta. set (q := pv_batch_check rseeds delta opek relmsg (bv_poly v)) in *.
    assert (D : forall g gp dl, follow false (k {| bv_gates := g; bv_poly := q |} (bv_finalize same_bytes H {| bv_gates := g; bv_poly := q |} (H (p_hash gp)))) l dl res ->
      follow false (PAlign true (PGet 32 (fun x => k {| bv_gates := g; bv_poly := q |} (bv_finalize same_bytes H {| bv_gates := g; bv_poly := q |} x)))) (compile (fin_ops H gp) ++ l) dl res).
    { intros g gp dl0 Fg. unfold fin_ops. pose proof (HH (p_hash gp)) as Ly. set (y := H (p_hash gp)) in *. cbn [compile flat_map compile1 app follow Bool.eqb].
      eexists. split; [reflexivity|]. rewrite Ly. eexists. split; [reflexivity|]. exact Fg. }
    destruct (p_buf (bp_gates s)) eqn:Eb.
    - destruct (v_buf (bv_gates v)); [|discriminate]. injection E as <-. injection Ev as <-. cbn [bp_gates] in F. cbn [nchal fin_ops skipn] in F. now apply D.
    - destruct (v_buf (bv_gates v)) eqn:Evb; [discriminate|].
      destruct (prv_manage pM threads seeds (bp_gates s)) as [s1|] eqn:Em; [|discriminate].
      destruct (ver_manage vK delta threads seeds chkmsg (bv_gates v)) as [v1|] eqn:Evm; [|discriminate]. injection Ev as <-.
      destruct (manage_facts pM threads seeds (bp_gates s) s1 Em) as (_ & _ & _ & _ & A & M1 & A1 & A2).
      assert (Ep : bp_gates p = s1) by (injection E as <-; reflexivity).
      rewrite nchal_app in Ld, F. cbn [chk_ops fin_ops nchal Nat.add] in Ld, F. destruct dl as [|h dl]; [cbn in Ld; lia|]. cbn [skipn] in F.
      apply sds_head in Sd. destruct Sd as [Sd _]. rewrite compile_app, <- app_assoc.
      apply vfollow_chk with (chkmsg := chkmsg) (A := A) (v1 := v1) (seeds := seeds); auto; try (now rewrite I2).
      + rewrite I3, Ep. apply pfx_at. rewrite M1. apply prefix_refl.
      + rewrite M1. apply last_last.
      + apply D. rewrite <- Ep. exact F.
  Qed.
End Follow.
