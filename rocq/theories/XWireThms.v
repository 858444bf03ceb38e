(** Honest programs with both engines on one channel: every interleaving completes with the results of the two message-level sessions. *)
From Coq Require Import NArith List Bool Arith Lia.
From Verif Require Import Word WordProofs GF128 GF128Ring FpModel ArithModel ArithSpec ArithThms3 ArithThms4 BoolModel BoolSpec BoolProofs BoolAlg BoolThms
  BoolIOModel BoolIOSpec BoolIOProofs BoolIOThms HideProofs BoolPolyModel BoolPolySpec BSessModel BSessSpec BSessProofs BSessThms
  WireModel WireNet WireProofs BWireModel BWireProofs BWireThms AWireModel AWireNet AWireProofs XWireModel XWireArith XWireBool.
Import ListNotations.

(** the calls of each engine, and the data sent to each party *)
Fixpoint bcalls (prog : list xop) : list bop := match prog with [] => [] | XB o :: r => o :: bcalls r | _ :: r => bcalls r end.
Fixpoint acalls (prog : list xop) : list agate := match prog with [] => [] | XA g :: r => g :: acalls r | _ :: r => acalls r end.
Fixpoint data_to (toP : bool) (prog : list xop) : list (list N) :=
  match prog with [] => [] | XData d x :: r => if Bool.eqb d (negb toP) then x :: data_to toP r else data_to toP r | _ :: r => data_to toP r end.

Section Session.
  Variables (r0 r1 : N) (pM vK : nat -> N) (delta : N) (threads csz psz : nat) (ope opek : nat -> list N) (rseeds : nat -> N).
  Variables (G : list N -> nat -> N) (H : list N -> list N).
  Variables (pub_mac : N) (pV vV : nat -> N) (adelta : N) (acsz apsz : nat) (AG : N -> nat -> N) (AH : list N -> list N).
  Variable coins : bool -> nat -> N.
  Hypothesis Hth : 1 <= threads.
  Hypothesis Hcsz : threads <= csz.
  Hypothesis HH : forall l, length (H l) = 32.
  Hypothesis Hope : forall k, length (ope k) = 128.
  Hypothesis Hrs : forall k, (rseeds k < 2 ^ 128)%N.
  Hypothesis Hcoins : forall k, (coins false k < 2 ^ 128)%N.
  Hypothesis Hacsz : 1 <= acsz.
  Hypothesis HAH : forall l, length (AH l) = 32.
  Notation aseeds := (fun k : nat => AG (coins false k)).
  Notation astep := (ap_step pub_mac pV threads acsz apsz aseeds (coins true)).
  Notation afinal := (ap_final pV threads aseeds (coins true)).
  Notation aops := (aop_ops threads pub_mac pV acsz apsz AG coins).
  Notation aeops := (aend_ops threads pV AG AH coins).
  Section S.
    Variable sd : nat -> nat -> N.
    Notation bstep := (bp_step r0 r1 pM threads csz psz sd rseeds ope).
    Notation bfin := (bfinal pM threads rseeds ope sd).
    Notation bops := (bop_ops r0 r1 pM threads csz psz rseeds ope sd).
    Notation beops := (bend_ops pM threads rseeds ope H sd).
    Fixpoint xsched (s : xprv) (prog : list xop) : option (list op * xprv) :=
      match prog with
      | [] => match bfin (xp_b s), afinal (xp_a s) with
              | Some b, Some a => Some (beops (xp_b s) ++ aeops (xp_a s), {| xp_b := b; xp_a := a; xp_got := xp_got s |})
              | _, _ => None
              end
      | XB o :: r => match bstep (xp_b s) o with
                     | None => None
                     | Some b => match xsched {| xp_b := b; xp_a := xp_a s; xp_got := xp_got s |} r with
                                 | None => None | Some (os, p) => Some (bops (xp_b s) o ++ os, p) end
                     end
      | XA g :: r => match astep (xp_a s) g with
                     | None => None
                     | Some a => match xsched {| xp_b := xp_b s; xp_a := a; xp_got := xp_got s |} r with
                                 | None => None | Some (os, p) => Some (aops (xp_a s) g ++ os, p) end
                     end
      | XData d x :: r => match xsched {| xp_b := xp_b s; xp_a := xp_a s; xp_got := if d then xp_got s else xp_got s ++ [x] |} r with
                          | None => None | Some (os, p) => Some ([OData d x] ++ os, p) end
      | XSync :: r => match xsched s r with None => None | Some (os, p) => Some ([OFlush] ++ os, p) end
      end.
    (** the projections are the two message-level runs *)
    Definition brest (b : bprv) (c : list bop) : option bprv :=
      match bp_run r0 r1 pM threads csz psz sd rseeds ope b c with None => None | Some s => bfin s end.
    Definition arest (a : apst) (c : list agate) : option apst :=
      match ap_run pub_mac pV threads acsz apsz aseeds (coins true) a c with None => None | Some s => afinal s end.
    Lemma xsched_run prog : forall s b a, brest (xp_b s) (bcalls prog) = Some b -> arest (xp_a s) (acalls prog) = Some a ->
      exists os, xsched s prog = Some (os, {| xp_b := b; xp_a := a; xp_got := xp_got s ++ data_to true prog |}).
    Proof.
      induction prog as [|[o|g|d x|] prog IH]; intros s b a Eb Ea; cbn [xsched bcalls acalls data_to] in *.
      - unfold brest, arest in *. cbn [bp_run ap_run] in *. rewrite Eb, Ea, app_nil_r. eauto.
      - unfold brest in Eb. cbn [bp_run] in Eb. destruct (bstep (xp_b s) o) as [b1|]; [|discriminate].
        destruct (IH {| xp_b := b1; xp_a := xp_a s; xp_got := xp_got s |} b a Eb Ea) as [os ->]. eauto.
      - unfold arest in Ea. cbn [ap_run] in Ea. destruct (astep (xp_a s) g) as [a1|]; [|discriminate].
        destruct (IH {| xp_b := xp_b s; xp_a := a1; xp_got := xp_got s |} b a Eb Ea) as [os ->]. eauto.
      - destruct (IH {| xp_b := xp_b s; xp_a := xp_a s; xp_got := if d then xp_got s else xp_got s ++ [x] |} b a Eb Ea) as [os ->]. cbn [xp_got].
        destruct d; cbn [Bool.eqb negb]; [|rewrite <- app_assoc]; eauto.
      - destruct (IH s b a Eb Ea) as [os ->]. eauto.
    Qed.
    Lemma xsched_no_bare prog : forall s os p, xsched s prog = Some (os, p) -> no_bare_hash os.
    Proof.
      induction prog as [|[o|g|d x|] prog IH]; intros s os p E; cbn [xsched] in E.
      - destruct (bfin (xp_b s)); [|discriminate]. destruct (afinal (xp_a s)); [|discriminate]. apply some2 in E. destruct E as [<- _].
        apply no_bare_app; [apply bend_no_bare|apply quiet_facts, aend_quiet].
      - destruct (bstep (xp_b s) o); [|discriminate]. destruct (xsched _ prog) as [[os1 p1]|] eqn:E1; [|discriminate]. apply some2 in E. destruct E as [<- _].
        apply no_bare_app; [apply bop_no_bare|exact (IH _ _ _ E1)].
      - destruct (astep (xp_a s) g); [|discriminate]. destruct (xsched _ prog) as [[os1 p1]|] eqn:E1; [|discriminate]. apply some2 in E. destruct E as [<- _].
        apply no_bare_app; [apply quiet_facts, aop_quiet|exact (IH _ _ _ E1)].
      - destruct (xsched _ prog) as [[os1 p1]|] eqn:E1; [|discriminate]. apply some2 in E. destruct E as [<- _].
        apply no_bare_app; [repeat constructor|exact (IH _ _ _ E1)].
      - destruct (xsched _ prog) as [[os1 p1]|] eqn:E1; [|discriminate]. apply some2 in E. destruct E as [<- _].
        apply no_bare_app; [repeat constructor|exact (IH _ _ _ E1)].
    Qed.
  End S.
  (** bits and shapes of the schedule do not depend on the challenges *)
  Lemma xsched_alike sd sd' prog : forall s s' os p, balike (xp_b s) (xp_b s') -> xp_a s = xp_a s' -> xp_got s = xp_got s' -> xsched sd s prog = Some (os, p) ->
    exists os' p', xsched sd' s' prog = Some (os', p') /\ Forall2 same_shape os os' /\ bits_of os = bits_of os'.
  Proof.
    induction prog as [|[o|g|d x|] prog IH]; intros s s' os p Al Ea Eg E; cbn [xsched] in *; rewrite <- ?Ea, <- ?Eg.
    - destruct (bfinal pM threads rseeds ope sd (xp_b s)) as [b|] eqn:Eb; [|discriminate]. destruct (afinal (xp_a s)); [|discriminate]. apply some2 in E. destruct E as [<- _].
      destruct (bend_alike pM threads rseeds ope H sd sd' _ _ b Al Eb) as ((b' & ->) & Sh & B).
      do 2 eexists. split; [reflexivity|]. split; [apply Forall2_app; [exact Sh|apply shape_refl]|now rewrite !bits_of_app, B].
    - destruct (bp_step r0 r1 pM threads csz psz sd rseeds ope (xp_b s) o) as [b|] eqn:Eb; [|discriminate].
      destruct (xsched sd _ prog) as [[os1 p1]|] eqn:E1; [|discriminate]. apply some2 in E. destruct E as [<- _].
      destruct (bop_alike r0 r1 pM threads csz psz rseeds ope H Hth Hcsz sd sd' _ _ o b Al Eb) as (b' & -> & Al' & Sh & B).
      destruct (IH {| xp_b := b; xp_a := xp_a s; xp_got := xp_got s |} {| xp_b := b'; xp_a := xp_a s; xp_got := xp_got s |} os1 p1 Al' eq_refl eq_refl E1) as (os' & p' & -> & Sh1 & B1).
      do 2 eexists. split; [reflexivity|]. split; [apply Forall2_app; [exact Sh|exact Sh1]|now rewrite !bits_of_app, B, B1].
    - destruct (astep (xp_a s) g) as [a|]; [|discriminate]. destruct (xsched sd _ prog) as [[os1 p1]|] eqn:E1; [|discriminate]. apply some2 in E. destruct E as [<- _].
      destruct (IH {| xp_b := xp_b s; xp_a := a; xp_got := xp_got s |} {| xp_b := xp_b s'; xp_a := a; xp_got := xp_got s |} os1 p1 Al eq_refl eq_refl E1) as (os' & p' & -> & Sh1 & B1).
      do 2 eexists. split; [reflexivity|]. split; [apply Forall2_app; [apply shape_refl|exact Sh1]|now rewrite !bits_of_app, B1].
    - destruct (xsched sd _ prog) as [[os1 p1]|] eqn:E1; [|discriminate]. apply some2 in E. destruct E as [<- _].
      destruct (IH {| xp_b := xp_b s; xp_a := xp_a s; xp_got := if d then xp_got s else xp_got s ++ [x] |}
        {| xp_b := xp_b s'; xp_a := xp_a s; xp_got := if d then xp_got s else xp_got s ++ [x] |} os1 p1 Al eq_refl eq_refl E1) as (os' & p' & -> & Sh1 & B1).
      do 2 eexists. split; [reflexivity|]. split; [apply Forall2_app; [apply shape_refl|exact Sh1]|now rewrite !bits_of_app, B1].
    - destruct (xsched sd s prog) as [[os1 p1]|] eqn:E1; [|discriminate]. apply some2 in E. destruct E as [<- _].
      destruct (IH s s' os1 p1 Al Ea Eg E1) as (os' & p' & -> & Sh1 & B1).
      do 2 eexists. split; [reflexivity|]. split; [apply Forall2_app; [apply shape_refl|exact Sh1]|now rewrite !bits_of_app, B1].
  Qed.
  (** * both programs follow the schedule *)
  Variable seeds : nat -> nat -> N.
  Notation sched := (xsched seeds).
  Notation sds := (seeds_are G seeds).
  Notation pprog := (xprv_prog r0 r1 pM threads csz psz ope G H pub_mac pV acsz apsz AG AH).
  Notation vprog := (xver_prog r0 r1 vK delta threads csz psz opek rseeds G H pub_mac vV adelta acsz apsz AG AH coins).
  Lemma sds_skip k n dl : sds k dl -> sds (k + n) (skipn n dl).
  Proof.
    intros Sd i h Hi. rewrite <- Nat.add_assoc. apply Sd. clear - Hi. revert dl Hi. induction n as [|n IH]; intros dl Hi; [exact Hi|].
    destruct dl as [|x dl]; cbn [skipn] in Hi; [destruct i; discriminate|]. cbn [Nat.add nth_error]. now apply IH.
  Qed.
  Lemma xprv_follow prog : forall s os p dl, sched s prog = Some (os, p) -> sds (p_chk (bp_gates (xp_b s))) dl -> length dl = nchal os ->
    follow true (pprog s prog) (compile (os ++ [OFlush])) dl (Some p).
  Proof.
    induction prog as [|[o|g|d x|] prog IH]; intros s os p dl E Sd Ld; cbn [xsched xprv_prog] in *.
    - destruct (bfinal pM threads rseeds ope seeds (xp_b s)) as [b|] eqn:Eb; [|discriminate]. destruct (afinal (xp_a s)) as [a|] eqn:Ea; [|discriminate].
      apply some2 in E. destruct E as [<- <-]. rewrite nchal_app in Ld. rewrite <- !app_assoc, !compile_app.
      assert (Q : nchal (aeops (xp_a s)) = 0) by (apply quiet_facts, aend_quiet).
      assert (LL : nchal (bend_ops pM threads rseeds ope H seeds (xp_b s)) <= length dl) by (clear - Ld; lia).
      apply (@pb_end pM vK threads csz psz ope opek rseeds G H Hth Hcsz HH Hope Hrs seeds _ _ b _ _ _ _ Eb Sd LL). apply (@pf_end threads pV AG AH coins Hcoins _ _ a _ _ _ _ Ea).
      assert (Z : skipn (nchal (bend_ops pM threads rseeds ope H seeds (xp_b s))) dl = []).
      { apply length_zero_iff_nil. rewrite skipn_length. clear - Ld Q. lia. }
      rewrite Z. cbn. eexists. split; reflexivity.
    - destruct (bp_step r0 r1 pM threads csz psz seeds rseeds ope (xp_b s) o) as [b|] eqn:Eb; [|discriminate].
      destruct (sched _ prog) as [[os1 p1]|] eqn:E1; [|discriminate]. apply some2 in E. destruct E as [<- <-]. rewrite nchal_app in Ld. rewrite <- app_assoc, compile_app.
      assert (LL : nchal (bop_ops r0 r1 pM threads csz psz rseeds ope seeds (xp_b s) o) <= length dl) by (clear - Ld; lia).
      apply (@pb_op r0 r1 pM vK threads csz psz ope opek rseeds G H Hth Hcsz HH Hope Hrs seeds _ _ o b _ _ _ _ Eb Sd LL). apply (IH {| xp_b := b; xp_a := xp_a s; xp_got := xp_got s |} os1 p1); auto.
      + cbn [xp_b]. rewrite (@bop_chk r0 r1 pM vK threads csz psz ope opek rseeds G H Hth Hcsz HH Hope Hrs seeds _ _ _ Eb). now apply sds_skip.
      + rewrite skipn_length. clear - Ld. lia.
    - destruct (astep (xp_a s) g) as [a|] eqn:Ea; [|discriminate].
      destruct (sched _ prog) as [[os1 p1]|] eqn:E1; [|discriminate]. apply some2 in E. destruct E as [<- <-]. rewrite nchal_app in Ld. rewrite <- app_assoc, compile_app.
      assert (Q : nchal (aops (xp_a s) g) = 0) by (apply quiet_facts, aop_quiet). rewrite Q in Ld.
      apply (@pf_arith threads pub_mac pV acsz apsz AG coins Hcoins Hacsz _ _ g a _ _ _ _ Ea). apply (IH {| xp_b := xp_b s; xp_a := a; xp_got := xp_got s |} os1 p1); auto.
    - destruct (sched _ prog) as [[os1 p1]|] eqn:E1; [|discriminate]. apply some2 in E. destruct E as [<- <-]. cbn [app nchal] in Ld.
      rewrite <- app_assoc, compile_app. destruct d; cbn [compile flat_map compile1 app follow Bool.eqb]; fold (compile (os1 ++ [OFlush]));
        (eexists; split; [reflexivity|]); (eexists; split; [reflexivity|]).
      + eapply IH; eauto. destruct s; exact E1.
      + exact (IH _ os1 p1 dl E1 Sd Ld).
    - destruct (sched s prog) as [[os1 p1]|] eqn:E1; [|discriminate]. apply some2 in E. destruct E as [<- <-]. cbn [app nchal] in Ld.
      rewrite <- app_assoc, compile_app. cbn [compile flat_map compile1 app follow]. fold (compile (os1 ++ [OFlush])). eexists. split; [reflexivity|]. now apply (IH s os1 p1).
  Qed.
  (** what is produced later only extends what has been produced *)
  Lemma xsched_pre prog : forall s os p, sched s prog = Some (os, p) -> bpre (xp_b s) (xp_b p) /\ upto (xp_a s) (xp_a p).
  Proof.
    induction prog as [|[o|g|d x|] prog IH]; intros s os p E; cbn [xsched] in E.
    - destruct (bfinal pM threads rseeds ope seeds (xp_b s)) as [b|] eqn:Eb; [|discriminate]. destruct (afinal (xp_a s)) as [a|] eqn:Ea; [|discriminate].
      apply some2 in E. destruct E as [_ <-]. cbn [xp_b xp_a]. split; [eapply bend_pre; eauto|].
      apply (rest_upto pub_mac pV threads acsz apsz AG coins [] (xp_a s) a). unfold p_rest. cbn [ap_run]. exact Ea.
    - destruct (bp_step r0 r1 pM threads csz psz seeds rseeds ope (xp_b s) o) as [b|] eqn:Eb; [|discriminate].
      destruct (sched _ prog) as [[os1 p1]|] eqn:E1; [|discriminate]. apply some2 in E. destruct E as [_ <-]. destruct (IH _ _ _ E1) as [A B]. cbn [xp_b xp_a] in *.
      split; [|exact B]. eapply bpre_trans; [|exact A]. exact (@bop_pre r0 r1 pM vK threads csz psz ope opek rseeds G H Hth Hcsz HH Hope Hrs seeds _ _ _ Eb).
    - destruct (astep (xp_a s) g) as [a|] eqn:Ea; [|discriminate].
      destruct (sched _ prog) as [[os1 p1]|] eqn:E1; [|discriminate]. apply some2 in E. destruct E as [_ <-]. destruct (IH _ _ _ E1) as [A B]. cbn [xp_b xp_a] in *.
      split; [exact A|]. eapply upto_trans; [|exact B]. eapply step_upto; exact Ea.
    - destruct (sched _ prog) as [[os1 p1]|] eqn:E1; [|discriminate]. apply some2 in E. destruct E as [_ <-]. exact (IH _ _ _ E1).
    - destruct (sched _ prog) as [[os1 p1]|] eqn:E1; [|discriminate]. apply some2 in E. destruct E as [_ <-]. exact (IH _ _ _ E1).
  Qed.
  Variable p : xprv.
  Notation bitmsg := (fun i => nth i (p_bits (bp_gates (xp_b p))) false).
  Notation chkmsg := (fun k => nth k (p_msgs (bp_gates (xp_b p))) (0, 0)%N).
  Notation relmsg := (fun k => nth k (pp_msgs (bp_poly (xp_b p))) (0, 0)%N).
  Variables (words : nat -> N) (achkmsg apchkmsg : nat -> N * N).
  Hypothesis Agw : agree words (ap_words (xp_a p)).
  Hypothesis Agc : agree achkmsg (ap_msgs (xp_a p)).
  Hypothesis Agp : agree apchkmsg (ap_pmsgs (xp_a p)).
  Hypothesis Hw64 : forall k, (words k < 2 ^ 64)%N.
  Notation bvstep := (bv_step r0 r1 vK delta threads csz psz seeds rseeds opek bitmsg chkmsg relmsg).
  Notation bvrun := (bv_run r0 r1 vK delta threads csz psz seeds rseeds opek bitmsg chkmsg relmsg).
  Notation avstep := (av_step pub_mac vV adelta threads acsz apsz aseeds (coins true) words achkmsg apchkmsg).
  Notation avrest := (v_rest pub_mac vV adelta threads acsz apsz AG coins words achkmsg apchkmsg).
  Definition bvrest (v : bver) (c : list bop) : option bver :=
    match bvrun v c with
    | None => None
    | Some s => match ver_final vK delta threads seeds chkmsg (bv_gates s) with
                | None => None | Some g => Some {| bv_gates := g; bv_poly := pv_batch_check rseeds delta opek relmsg (bv_poly s) |} end
    end.
  Lemma cheat_step v g v2 : avstep v g = Some v2 -> av_cheat v = true -> av_cheat v2 = true.
  Proof.
    intros E C. destruct g; cbn [av_step] in E.
    all: try (injection E as <-; cbn; exact C).
    - unfold av_precheck in E. destruct (Nat.eqb _ _); [|injection E as <-; exact C]. unfold av_manage in E.
      destruct (a_ranges threads (length (av_buf v))); [|discriminate]. injection E as <-. cbn. exact C.
    - injection E as <-. unfold av_queue. destruct (Nat.leb _ _); cbn [av_cheat]; [|exact C]. unfold av_batch. destruct (av_poly v); cbn [av_cheat]; rewrite C; reflexivity.
    - injection E as <-. unfold av_queue. destruct (Nat.leb _ _); cbn [av_cheat]; [|exact C]. unfold av_batch. destruct (av_poly v); cbn [av_cheat]; rewrite C; reflexivity.
  Qed.
  Lemma cheat_rest c : forall v vf, avrest v c = Some vf -> av_cheat v = true -> av_cheat vf = true.
  Proof.
    induction c as [|g c IH]; intros v vf E C; unfold v_rest in E; cbn [av_run] in E.
    - unfold av_final in E. cbv zeta in E. assert (B : av_cheat (av_batch vV adelta (coins true) apchkmsg v) = true).
      { unfold av_batch. destruct (av_poly v); cbn [av_cheat]; rewrite C; reflexivity. }
      destruct (av_buf _); [injection E as <-; exact B|]. unfold av_manage in E. destruct (a_ranges _ _); [|discriminate]. injection E as <-. exact B.
    - destruct (avstep v g) as [v2|] eqn:Ev; [|discriminate]. eapply IH; [exact E|]. eapply cheat_step; eauto.
  Qed.
  Lemma xver_follow prog : forall s v bvf avf os dl, sched s prog = Some (os, p) -> binv (xp_b s) (xv_b v) -> like (xp_a s) (xv_a v) ->
    bvrest (xv_b v) (bcalls prog) = Some bvf -> avrest (xv_a v) (acalls prog) = Some avf -> av_err avf = false -> av_cheat avf = false ->
    same_bytes (AH (av_hash avf)) (AH (ap_hash (xp_a p))) = true ->
    sds (p_chk (bp_gates (xp_b s))) dl -> length dl = nchal os ->
    follow false (vprog v prog) (compile (os ++ [OFlush])) dl
      (Some ({| xv_b := bvf; xv_a := avf; xv_got := xv_got v ++ data_to false prog |}, bv_finalize same_bytes H bvf (H (p_hash (bp_gates (xp_b p)))))).
  Proof.
    induction prog as [|[o|g|d x|] prog IH]; intros s v bvf avf os dl E Bi L Ebv Eav Hno Hch Hs Sd Ld; cbn [xsched xver_prog bcalls acalls data_to] in *.
    - destruct (bfinal pM threads rseeds ope seeds (xp_b s)) as [b|] eqn:Eb; [|discriminate]. destruct (afinal (xp_a s)) as [a|] eqn:Ea; [|discriminate].
      apply some2 in E. destruct E as [<- Ep]. rewrite <- Ep in Hs. cbn [xp_a] in Hs.
      assert (C0 : av_cheat (xv_a v) = false).
      { destruct (av_cheat (xv_a v)) eqn:C; [|reflexivity]. rewrite (cheat_rest [] _ _ Eav C) in Hch. discriminate. }
      unfold bvrest in Ebv. unfold v_rest in Eav. cbn [bv_run av_run] in Ebv, Eav.
      rewrite nchal_app in Ld. rewrite <- !app_assoc, !compile_app.
      assert (Q : nchal (aeops (xp_a s)) = 0) by (apply quiet_facts, aend_quiet).
      assert (LL : nchal (bend_ops pM threads rseeds ope H seeds (xp_b s)) <= length dl) by (clear - Ld; lia).
      assert (Z : skipn (nchal (bend_ops pM threads rseeds ope H seeds (xp_b s))) dl = []).
      { apply length_zero_iff_nil. rewrite skipn_length. clear - Ld Q. lia. }
      assert (Eb' : bfinal pM threads rseeds ope seeds (xp_b s) = Some (xp_b p)) by (rewrite <- Ep; exact Eb).
      assert (Ea' : afinal (xp_a s) = Some (xp_a p)) by (rewrite <- Ep; exact Ea).
      apply (@vb_end pM vK delta threads csz psz ope opek rseeds G H Hth Hcsz HH Hope Hrs seeds (xp_b p) _ _ _ bvf _ _ _ _ Bi Eb' Ebv Sd LL). rewrite Z.
      apply (@vf_end threads pV vV adelta acsz apsz AG AH coins Hcoins Hacsz HAH words achkmsg apchkmsg (xp_a p) Agc Agp _ _ _ avf _ _ _ _ L Ea' Eav Hno).
      + now rewrite <- Ep.
      + rewrite C0, orb_false_r, app_nil_r. cbn. eexists. split; reflexivity.
    - destruct (bp_step r0 r1 pM threads csz psz seeds rseeds ope (xp_b s) o) as [b|] eqn:Eb; [|discriminate].
      destruct (sched _ prog) as [[os1 p1]|] eqn:E1; [|discriminate]. apply some2 in E. destruct E as [<- ->]. rewrite nchal_app in Ld. rewrite <- app_assoc, compile_app.
      assert (LL : nchal (bop_ops r0 r1 pM threads csz psz rseeds ope seeds (xp_b s) o) <= length dl) by (clear - Ld; lia).
      destruct (xsched_pre _ _ _ _ E1) as [Pb _]. cbn [xp_b] in Pb.
      unfold bvrest in Ebv. cbn [bv_run] in Ebv. destruct (bvstep (xv_b v) o) as [bv|] eqn:Evs; [|discriminate]. fold (bvrest bv (bcalls prog)) in Ebv.
      pose proof (fun k l res => @vb_op r0 r1 pM vK delta threads csz psz ope opek rseeds G H Hth Hcsz HH Hope Hrs seeds (xp_b p) (xver * bool) (xp_b s) (xv_b v) o b bv k l dl res Bi Eb Evs Pb Sd LL) as V.
      destruct (V (fun b0 => vprog {| xv_b := b0; xv_a := xv_a v; xv_got := xv_got v |} prog) (compile (os1 ++ [OFlush]))
        (Some ({| xv_b := bvf; xv_a := avf; xv_got := xv_got v ++ data_to false prog |}, bv_finalize same_bytes H bvf (H (p_hash (bp_gates (xp_b p))))))) as [Bi2 F]. apply F.
      apply (IH {| xp_b := b; xp_a := xp_a s; xp_got := xp_got s |} {| xv_b := bv; xv_a := xv_a v; xv_got := xv_got v |}); auto.
      + cbn [xp_b]. rewrite (@bop_chk r0 r1 pM vK threads csz psz ope opek rseeds G H Hth Hcsz HH Hope Hrs seeds _ _ _ Eb). now apply sds_skip.
      + rewrite skipn_length. clear - Ld. lia.
    - destruct (astep (xp_a s) g) as [a|] eqn:Ea; [|discriminate].
      destruct (sched _ prog) as [[os1 p1]|] eqn:E1; [|discriminate]. apply some2 in E. destruct E as [<- ->]. rewrite nchal_app in Ld. rewrite <- app_assoc, compile_app.
      assert (Q : nchal (aops (xp_a s) g) = 0) by (apply quiet_facts, aop_quiet). rewrite Q in Ld.
      destruct (xsched_pre _ _ _ _ E1) as [_ U]. cbn [xp_a] in U.
      unfold v_rest in Eav. cbn [av_run] in Eav. destruct (avstep (xv_a v) g) as [av|] eqn:Evs; [|discriminate]. fold (avrest av (acalls prog)) in Eav.
      pose proof (rest_noerr pub_mac vV adelta threads acsz apsz AG coins words achkmsg apchkmsg _ _ _ Eav Hno) as N2.
      destruct (@vf_arith threads pub_mac pV vV adelta acsz apsz AG AH coins Hcoins Hacsz words achkmsg apchkmsg (xp_a p) Agw Agc Agp Hw64 (xver * bool) (xp_a s) (xv_a v) g a av
        (fun a0 => vprog {| xv_b := xv_b v; xv_a := a0; xv_got := xv_got v |} prog) (compile (os1 ++ [OFlush])) dl
        (Some ({| xv_b := bvf; xv_a := avf; xv_got := xv_got v ++ data_to false prog |}, bv_finalize same_bytes H bvf (H (p_hash (bp_gates (xp_b p)))))) L Ea Evs N2 U) as [L2 F].
      apply F. apply (IH {| xp_b := xp_b s; xp_a := a; xp_got := xp_got s |} {| xv_b := xv_b v; xv_a := av; xv_got := xv_got v |}); auto.
    - destruct (sched _ prog) as [[os1 p1]|] eqn:E1; [|discriminate]. apply some2 in E. destruct E as [<- ->]. cbn [app nchal] in Ld.
      rewrite <- app_assoc, compile_app. destruct d; cbn [compile flat_map compile1 app follow Bool.eqb negb]; fold (compile (os1 ++ [OFlush]));
        (eexists; split; [reflexivity|]); (eexists; split; [reflexivity|]).
      + pose proof (IH _ {| xv_b := xv_b v; xv_a := xv_a v; xv_got := xv_got v ++ [x] |} bvf avf os1 dl E1 Bi L Ebv Eav Hno Hch Hs Sd Ld) as X.
        cbn [xv_got] in X. rewrite <- app_assoc in X. exact X.
      + exact (IH _ v bvf avf os1 dl E1 Bi L Ebv Eav Hno Hch Hs Sd Ld).
    - destruct (sched s prog) as [[os1 p1]|] eqn:E1; [|discriminate]. apply some2 in E. destruct E as [<- ->]. cbn [app nchal] in Ld.
      rewrite <- app_assoc, compile_app. cbn [compile flat_map compile1 app follow]. fold (compile (os1 ++ [OFlush])). eexists. split; [reflexivity|].
      exact (IH s v bvf avf os1 dl E1 Bi L Ebv Eav Hno Hch Hs Sd Ld).
  Qed.
End Session.

(** Every interleaving of an honest mixed program ends, without an error, with both engines' outputs equal to the plain evaluation. *)
Theorem xnet_session : forall bs br reset NB gs gr r0 r1 pM d threads csz psz ope rseeds G H pub_mac pU pMac ad acsz apsz AG AH coins prog,
  1 <= NB -> length gs = NB -> valid_delta d -> (forall l, length (H l) = 32) -> 1 <= threads <= 32 -> threads <= csz -> 1 <= psz ->
  (forall k, length (ope k) = 128) -> (forall k, (rseeds k < 2 ^ 128)%N) -> wf_prog 0 (bcalls prog) = true -> all_hold (brels (bcalls prog)) = true ->
  count_and (gates_of (bcalls prog)) = 0 \/ threads <= last_batch csz (count_and (gates_of (bcalls prog))) ->
  vole_ok pU pMac -> (pub_mac < prm)%N -> (ad < prm)%N -> (forall k, (coins false k < 2 ^ 128)%N) -> (forall k, (coins true k < 2 ^ 64)%N) ->
  Forall wf_honest (acalls prog) -> pl_ok (aplain (acalls prog)) = true -> (forall l, length (AH l) = 32) -> 1 <= acsz ->
  exists (bound : nat) (p : xprv) (v : xver),
    (p_outs (bp_gates (xp_b p)) = bouts (bcalls prog) /\ v_outs (bv_gates (xv_b v)) = bouts (bcalls prog)) /\
    (ap_outs (xp_a p) = pl_outs (aplain (acalls prog)) /\ av_outs (xv_a v) = pl_outs (aplain (acalls prog)) /\ av_cheat (xv_a v) = false) /\
    (xp_got p = data_to true prog /\ xv_got v = data_to false prog) /\
    forall k n,
      nsteps bs br reset NB k (n_init NB gs gr
        (xprv_prog r0 r1 pM threads csz psz ope G H pub_mac (vole_block pU pMac) acsz apsz AG AH xp_init prog)
        (xver_prog r0 r1 (cot_key pM d) d threads csz psz (fun k => map (ot_key d) (ope k)) rseeds G H pub_mac (vole_key pU pMac ad) ad acsz apsz AG AH coins xv_init prog)) n ->
      k <= bound /\
      ((exists n', nstep bs br reset NB n n') \/
       (n_p n = PDone (Some p) /\ n_v n = PDone (Some (v, false)) /\ n_sr n = [] /\ n_rs n = [])).
Proof.
  intros bs br reset NB gs gr r0 r1 pM d threads csz psz ope rseeds G H pub_mac pU pMac ad acsz apsz AG AH coins prog
    HNB Hgs Hd HH [Ht Ht32] Hc Hp Ho Hr Wf Hold Hand Hvo Hpm Had Hc0 Hc1 Awf Aok HAH Hac.
  set (aseeds := fun k : nat => AG (coins false k)).
  destruct (exec_defined pub_mac (vole_block pU pMac) threads acsz apsz aseeds (coins true) (conj Ht Ht32) (acalls prog)) as [pa Epa].
  destruct (session_complete pub_mac pU pMac threads acsz apsz aseeds (coins true) (acalls prog) pa ad Hvo Hpm Hc1 Awf Epa Had) as (_ & AO1 & va & Eva & AO2 & _ & A).
  specialize (A Aok (list N) same_bytes AH same_bytes_refl). unfold av_outcome in A. injection A as A1 A2.
  apply orb_false_elim in A1. destruct A1 as [A1 A3]. apply negb_false_iff in A3.
  destruct (p_exec pub_mac pU pMac threads acsz apsz aseeds (coins true) Hvo Hpm Hc1
    (fun k => nth k (ap_words pa) 0%N) (fun k => nth k (ap_msgs pa) (0, 0)%N) (fun k => nth k (ap_pmsgs pa) (0, 0)%N) (acalls prog) pa Awf Epa) as (s & Es & Sx).
  { split; [|split]; apply agree_nth. }
  assert (W : forall k, (nth k (ap_words pa) 0 < 2 ^ 64)%N).
  { intro k. eapply N.lt_trans; [apply nth_small, (ps_wl _ _ _ Sx)|reflexivity]. }
  destruct (proj2 (bsess_defined r0 r1 pM threads csz psz (fun _ _ => 0%N) rseeds ope (bcalls prog) Ht Hc Wf) Hand) as [pz Hz].
  assert (RUN : forall sd p, bp_exec r0 r1 pM threads csz psz sd rseeds ope (bcalls prog) = Some p ->
    exists os, xsched r0 r1 pM threads csz psz ope rseeds H pub_mac (vole_block pU pMac) acsz apsz AG AH coins sd xp_init prog
      = Some (os, {| xp_b := p; xp_a := pa; xp_got := data_to true prog |})).
  { intros sd p E. apply (xsched_run r0 r1 pM threads csz psz ope rseeds H pub_mac (vole_block pU pMac) acsz apsz AG AH coins sd prog xp_init p pa); [exact E|exact Epa]. }
  destruct (RUN _ pz Hz) as [os0 E0].
  set (dg := dgs bs reset NB gs os0). set (seeds := fun k : nat => G (nth k dg [])).
  destruct (proj2 (bsess_defined r0 r1 pM threads csz psz seeds rseeds ope (bcalls prog) Ht Hc Wf) Hand) as [pb Hpx].
  destruct (RUN _ pb Hpx) as [os E]. set (p := {| xp_b := pb; xp_a := pa; xp_got := data_to true prog |}) in *.
  assert (Al0 : balike (xp_b xp_init) (xp_b xp_init)) by (split; repeat split; reflexivity).
  assert (Edg : dgs bs reset NB gs os = dg).
  { destruct (xsched_alike r0 r1 pM threads csz psz ope rseeds H pub_mac (vole_block pU pMac) acsz apsz AG AH coins Ht Hc (fun _ _ => 0%N) seeds prog xp_init xp_init os0 _ Al0 eq_refl eq_refl E0) as (os' & p' & E' & Sh & B).
    rewrite E in E'. apply some2 in E'. destruct E' as [<- <-]. symmetry. now apply dgs_shape. }
  assert (Sd : seeds_are G seeds 0 dg).
  { intros i h Hi. cbn [Nat.add]. unfold seeds. now rewrite (nth_error_nth _ _ [] Hi). }
  assert (Ld : length dg = nchal os) by (rewrite <- Edg; apply dgs_len).
  destruct (bsess_complete r0 r1 pM threads csz psz seeds rseeds ope (list N) same_bytes H (bcalls prog) pb d same_bytes_refl Hd Hp Ho Wf Hold Hpx) as (vb & Hvb & O1 & O2 & Fz).
  set (v := {| xv_b := vb; xv_a := va; xv_got := data_to false prog |}).
  assert (FP : follow true (xprv_prog r0 r1 pM threads csz psz ope G H pub_mac (vole_block pU pMac) acsz apsz AG AH xp_init prog) (compile (os ++ [OFlush])) dg (Some p)).
  { eapply xprv_follow; try exact E; auto. }
  assert (FV : follow false (xver_prog r0 r1 (cot_key pM d) d threads csz psz (fun k => map (ot_key d) (ope k)) rseeds G H pub_mac (vole_key pU pMac ad) ad acsz apsz AG AH coins xv_init prog)
                 (compile (os ++ [OFlush])) dg (Some (v, bv_finalize same_bytes H vb (H (p_hash (bp_gates pb)))))).
  { apply (@xver_follow r0 r1 pM (cot_key pM d) d threads csz psz ope (fun k => map (ot_key d) (ope k)) rseeds G H pub_mac (vole_block pU pMac) (vole_key pU pMac ad) ad acsz apsz AG AH coins
      Ht Hc HH Ho Hr Hc0 Hac HAH seeds p (fun k => nth k (ap_words pa) 0%N) (fun k => nth k (ap_msgs pa) (0, 0)%N) (fun k => nth k (ap_pmsgs pa) (0, 0)%N)
      (agree_nth _ _) (agree_nth _ _) (agree_nth _ _) W prog xp_init xv_init vb va os dg E); auto.
    - repeat split.
    - repeat split. }
  rewrite Fz in FV. rewrite <- Edg in FP, FV.
  exists (2 * length (compile (os ++ [OFlush]))), p, v. split; [split; assumption|]. split; [split; [assumption|split; assumption]|]. split; [split; reflexivity|]. intros k n Hn.
  destruct (net_run bs br reset NB HNB gs gr os Hgs (xsched_no_bare r0 r1 pM threads csz psz ope rseeds H pub_mac (vole_block pU pMac) acsz apsz AG AH coins seeds prog _ _ _ E)
    _ _ _ _ FP FV k n Hn) as [A0 B0]. auto.
Qed.
