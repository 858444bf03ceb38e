(** Both programs of a boolean session with gates and relations follow the schedule of the honest prover's run. *)
From Coq Require Import NArith List Bool Arith Lia.
From Verif Require Import Word WordProofs GF128 GF128Ring BoolModel BoolSpec BoolProofs BoolAlg BoolThms BoolThms2 BoolIOModel BoolIOSpec BoolIOProofs
  BoolIOThms BoolIOThms2 HideProofs BoolPolyModel BoolPolySpec BSessModel BSessSpec BSessProofs BSessThms BSessHide WireModel WireNet WireProofs BWireModel.
Import ListNotations.

Lemma check_sum_lt buf seed ope : length ope = 128 ->
  (fst (prv_check_sum buf seed ope) < 2 ^ 128)%N /\ (snd (prv_check_sum buf seed ope) < 2 ^ 128)%N.
Proof.
  intro L. unfold prv_check_sum. cbn [fst snd]. split; apply lxor_lt; try apply inn_lt. unfold ch_bits. apply mkblock_lt; apply ch_word64; lia.
Qed.
Section Sched.
  Variables (r0 r1 : N) (pM : nat -> N) (threads csz psz : nat) (rseeds : nat -> N) (ope : nat -> list N) (H : list N -> list N).
  Hypothesis Hth : 1 <= threads.
  Hypothesis Hcsz : threads <= csz.
  Hypothesis Hope : forall k, length (ope k) = 128.
  Hypothesis Hrs : forall k, (rseeds k < 2 ^ 128)%N.
  Notation batch := (pp_batch_check rseeds ope).
  Definition rel_ops (s : ppst) : list op :=
    match pp_buf s with
    | [] => []
    | _ => [OData false (enc_block (rseeds (pp_chk s))); OData true (enc2 (last (pp_msgs (batch s)) (0, 0)%N))]
    end.
  Fixpoint isched (its : list (N * N)) (s : ppst) : list op * ppst :=
    match its with
    | [] => ([], s)
    | i :: r => if Nat.leb psz (length (pp_buf s)) then let (os, q) := isched r (pp_push (batch s) i) in (rel_ops s ++ os, q)
                else isched r (pp_push s i)
    end.
  Lemma isched_fold its : forall s, snd (isched its s) = fold_left (pp_item psz rseeds ope) its s.
  Proof.
    induction its as [|i r IH]; intro s; [reflexivity|]. cbn [isched fold_left]. unfold pp_item at 2. fold (pp_push (if Nat.leb psz (length (pp_buf s)) then batch s else s) i).
    destruct (Nat.leb psz (length (pp_buf s))); [|apply IH]. rewrite <- IH. destruct (isched r (pp_push (batch s) i)); reflexivity.
  Qed.
  Section S.
    Variable seeds : nat -> nat -> N.
    Notation step := (prv_step r0 r1 pM threads csz seeds).
    Fixpoint bsched (s : bprv) (prog : list bop) : option (list op * bprv) :=
      match prog with
      | [] => let q := batch (bp_poly s) in
              match p_buf (bp_gates s) with
              | [] => Some (rel_ops (bp_poly s) ++ fin_ops H (bp_gates s), {| bp_gates := bp_gates s; bp_poly := q |})
              | _ => match prv_manage pM threads seeds (bp_gates s) with
                     | None => None
                     | Some g => Some (rel_ops (bp_poly s) ++ chk_ops g ++ fin_ops H g, {| bp_gates := g; bp_poly := q |})
                     end
              end
      | OGate g :: r =>
          if full csz g (length (p_buf (bp_gates s))) then
            match prv_manage pM threads seeds (bp_gates s) with
            | None => None
            | Some s1 => match step (p_clear s1) g with
                         | None => None
                         | Some s2 => match bsched {| bp_gates := s2; bp_poly := bp_poly s |} r with
                                      | None => None | Some (os, p) => Some (chk_ops s1 ++ bit_ops g s2 ++ os, p) end
                         end
            end
          else match step (bp_gates s) g with
               | None => None
               | Some s2 => match bsched {| bp_gates := s2; bp_poly := bp_poly s |} r with
                            | None => None | Some (os, p) => Some (bit_ops g s2 ++ os, p) end
               end
      | OPoly c :: r =>
          let (os1, q) := isched (prv_items (bcall_map (wire (p_wires (bp_gates s))) c)) (bp_poly s) in
          match bsched {| bp_gates := bp_gates s; bp_poly := q |} r with None => None | Some (os, p) => Some (os1 ++ os, p) end
      end.
    Lemma bsched_run prog : forall s p,
      match bp_run r0 r1 pM threads csz psz seeds rseeds ope s prog with
      | None => None
      | Some s => match prv_final pM threads seeds (bp_gates s) with None => None | Some p => Some {| bp_gates := p; bp_poly := batch (bp_poly s) |} end
      end = Some p -> exists os, bsched s prog = Some (os, p).
    Proof.
      induction prog as [|[g|c] prog IH]; intros s p E; cbn [bp_run bsched] in *.
      - unfold prv_final in E. destruct (p_buf (bp_gates s)) eqn:Eb; [injection E as <-; eauto|].
        destruct (prv_manage pM threads seeds (bp_gates s)) as [s'|]; [|discriminate]. injection E as <-. eauto.
      - cbn [bp_step] in E. destruct (full csz g (length (p_buf (bp_gates s)))) eqn:Ef.
        + destruct (prv_manage pM threads seeds (bp_gates s)) as [s1|] eqn:Em.
          * rewrite (step_full r0 r1 pM threads csz Hth Hcsz seeds (bp_gates s) g s1 Ef Em) in E. destruct (step (p_clear s1) g) as [s2|]; [|discriminate].
            destruct (IH _ p E) as [os ->]. eauto.
          * rewrite (step_full_none r0 r1 pM threads csz seeds (bp_gates s) g Ef Em) in E. discriminate.
        + destruct (step (bp_gates s) g) as [s2|]; [|discriminate]. destruct (IH _ p E) as [os ->]. eauto.
      - cbn [bp_step] in E. unfold pp_call in E. rewrite <- isched_fold in E.
        destruct (isched (prv_items (bcall_map (wire (p_wires (bp_gates s))) c)) (bp_poly s)) as [os1 q]. cbn [snd] in E.
        destruct (IH _ p E) as [os ->]. eauto.
    Qed.
  End S.
  Lemma bsched_alike sd sd' prog : forall s s' os p, alike (bp_gates s) (bp_gates s') -> bp_poly s = bp_poly s' -> bsched sd s prog = Some (os, p) ->
    exists os' p', bsched sd' s' prog = Some (os', p') /\ Forall2 same_shape os os' /\ bits_of os = bits_of os'.
  Proof.
    assert (RR : forall l, Forall2 same_shape l l).
    { induction l as [|o l IH]; constructor; [destruct o; cbn; auto|exact IH]. }
    induction prog as [|[g|c] prog IH]; intros s s' os p Al Ep E; cbn [bsched] in *; pose proof Al as (A1 & A2 & _); rewrite <- ?A2, <- ?Ep.
    - destruct (p_buf (bp_gates s)) eqn:Eb.
      + apply some2 in E; destruct E as [<- <-]. do 2 eexists. split; [reflexivity|]. split.
        * apply Forall2_app; [apply RR|repeat constructor].
        * rewrite !bits_of_app. reflexivity.
      + destruct (prv_manage pM threads sd (bp_gates s)) as [s1|] eqn:Em; [|discriminate]. apply some2 in E; destruct E as [<- <-].
        destruct (alike_manage pM threads sd sd' _ _ s1 Al Em) as (s1' & -> & _). do 2 eexists. split; [reflexivity|]. split.
        * apply Forall2_app; [apply RR|repeat constructor].
        * rewrite !bits_of_app. reflexivity.
    - destruct (full csz g (length (p_buf (bp_gates s)))) eqn:Ef.
      + destruct (prv_manage pM threads sd (bp_gates s)) as [s1|] eqn:Em; [|discriminate].
        destruct (alike_manage pM threads sd sd' _ _ s1 Al Em) as (s1' & -> & Al1). apply alike_clear in Al1.
        destruct (prv_step r0 r1 pM threads csz sd (p_clear s1) g) as [s2|] eqn:Es; [|discriminate].
        destruct (alike_step r0 r1 pM threads csz sd _ _ g s2 (clear_not_full csz s1 g ltac:(lia)) Al1 Es) as (s2' & Es' & Al2).
        rewrite (step_seeds r0 r1 pM threads csz sd sd') in Es' by (apply clear_not_full; lia). rewrite Es'.
        destruct (bsched sd {| bp_gates := s2; bp_poly := bp_poly s |} prog) as [[os1 p1]|] eqn:E1; [|discriminate]. apply some2 in E; destruct E as [<- <-].
        destruct (IH {| bp_gates := s2; bp_poly := bp_poly s |} {| bp_gates := s2'; bp_poly := bp_poly s |} os1 p1 Al2 eq_refl E1) as (os' & p' & -> & Sh & B). do 2 eexists. split; [reflexivity|].
        destruct Al2 as (_ & _ & _ & _ & _ & Hb & _). split.
        * apply Forall2_app; [apply chk_shape|]. apply Forall2_app; [|exact Sh]. unfold bit_ops. rewrite Hb. destruct (sends g); repeat constructor.
        * rewrite !bits_of_app, B. unfold bit_ops. now rewrite Hb.
      + destruct (prv_step r0 r1 pM threads csz sd (bp_gates s) g) as [s2|] eqn:Es; [|discriminate].
        destruct (alike_step r0 r1 pM threads csz sd _ _ g s2 Ef Al Es) as (s2' & Es' & Al2).
        rewrite (step_seeds r0 r1 pM threads csz sd sd') in Es' by (now rewrite <- A2). rewrite Es'.
        destruct (bsched sd {| bp_gates := s2; bp_poly := bp_poly s |} prog) as [[os1 p1]|] eqn:E1; [|discriminate]. apply some2 in E; destruct E as [<- <-].
        destruct (IH {| bp_gates := s2; bp_poly := bp_poly s |} {| bp_gates := s2'; bp_poly := bp_poly s |} os1 p1 Al2 eq_refl E1) as (os' & p' & -> & Sh & B). do 2 eexists. split; [reflexivity|].
        destruct Al2 as (_ & _ & _ & _ & _ & Hb & _). split.
        * apply Forall2_app; [|exact Sh]. unfold bit_ops. rewrite Hb. destruct (sends g); repeat constructor.
        * rewrite !bits_of_app, B. unfold bit_ops. now rewrite Hb.
    - rewrite <- A1. destruct (isched (prv_items (bcall_map (wire (p_wires (bp_gates s))) c)) (bp_poly s)) as [os1 q].
      destruct (bsched sd {| bp_gates := bp_gates s; bp_poly := q |} prog) as [[os2 p1]|] eqn:E1; [|discriminate]. apply some2 in E; destruct E as [<- <-].
      destruct (IH {| bp_gates := bp_gates s; bp_poly := q |} {| bp_gates := bp_gates s'; bp_poly := q |} os2 p1 Al eq_refl E1) as (os' & p' & -> & Sh & B). do 2 eexists. split; [reflexivity|]. split.
      + apply Forall2_app; [apply RR|exact Sh].
      + now rewrite !bits_of_app, B.
  Qed.
  Lemma rel_no_bare s : no_bare_hash (rel_ops s).
  Proof. unfold rel_ops. destruct (pp_buf s); repeat constructor. Qed.
  Lemma isched_no_bare its : forall s, no_bare_hash (fst (isched its s)).
  Proof.
    induction its as [|i r IH]; intro s; cbn [isched]; [constructor|]. destruct (Nat.leb psz (length (pp_buf s))); [|apply IH].
    specialize (IH (pp_push (batch s) i)). destruct (isched r (pp_push (batch s) i)) as [os q]. cbn [fst] in *. apply Forall_app. split; [apply rel_no_bare|exact IH].
  Qed.
  Lemma rel_nchal s : nchal (rel_ops s) = 0.
  Proof. unfold rel_ops. now destruct (pp_buf s). Qed.
  Lemma isched_nchal its : forall s, nchal (fst (isched its s)) = 0.
  Proof.
    induction its as [|i r IH]; intro s; cbn [isched]; [reflexivity|]. destruct (Nat.leb psz (length (pp_buf s))); [|apply IH].
    specialize (IH (pp_push (batch s) i)). destruct (isched r (pp_push (batch s) i)) as [os q]. cbn [fst] in *. now rewrite nchal_app, rel_nchal, IH.
  Qed.
  Lemma bsched_no_bare sd prog : forall s os p, bsched sd s prog = Some (os, p) -> no_bare_hash os.
  Proof.
    assert (C : forall s, no_bare_hash (chk_ops s)) by (intro; repeat constructor).
    assert (B : forall g s, no_bare_hash (bit_ops g s)) by (intros; unfold bit_ops; destruct (sends g); repeat constructor).
    assert (F : forall s, no_bare_hash (fin_ops H s)) by (intro; repeat constructor).
    pose proof rel_no_bare as RB. unfold no_bare_hash in *.
    induction prog as [|[g|c] prog IH]; intros s os p E; cbn [bsched] in E.
    - destruct (p_buf (bp_gates s)); [apply some2 in E; destruct E as [<- <-]; apply Forall_app; split; [apply RB|apply F]|].
      destruct (prv_manage pM threads sd (bp_gates s)); [|discriminate].
      apply some2 in E; destruct E as [<- <-]. apply Forall_app. split; [apply RB|]. apply Forall_app. now split.
    - destruct (full csz g (length (p_buf (bp_gates s)))).
      + destruct (prv_manage pM threads sd (bp_gates s)) as [s1|]; [|discriminate]. destruct (prv_step r0 r1 pM threads csz sd (p_clear s1) g) as [s2|]; [|discriminate].
        destruct (bsched sd {| bp_gates := s2; bp_poly := bp_poly s |} prog) as [[os1 p1]|] eqn:E1; [|discriminate]. apply some2 in E; destruct E as [<- <-]. apply Forall_app. split; [apply C|].
        apply Forall_app. split; [apply B|]. exact (IH _ _ _ E1).
      + destruct (prv_step r0 r1 pM threads csz sd (bp_gates s) g) as [s2|]; [|discriminate].
        destruct (bsched sd {| bp_gates := s2; bp_poly := bp_poly s |} prog) as [[os1 p1]|] eqn:E1; [|discriminate]. apply some2 in E; destruct E as [<- <-]. apply Forall_app. split; [apply B|]. exact (IH _ _ _ E1).
    - pose proof (isched_no_bare (prv_items (bcall_map (wire (p_wires (bp_gates s))) c)) (bp_poly s)) as I.
      destruct (isched (prv_items (bcall_map (wire (p_wires (bp_gates s))) c)) (bp_poly s)) as [os1 q].
      destruct (bsched sd {| bp_gates := bp_gates s; bp_poly := q |} prog) as [[os2 p1]|] eqn:E1; [|discriminate]. apply some2 in E; destruct E as [<- <-].
      apply Forall_app. split; [exact I|exact (IH _ _ _ E1)].
  Qed.
  (** messages of the relation checks *)
  Lemma batch_facts s : pp_buf s <> [] -> exists A, pp_msgs (batch s) = pp_msgs s ++ [A] /\ pp_chk (batch s) = S (pp_chk s) /\ pp_buf (batch s) = [] /\
    (fst A < 2 ^ 128)%N /\ (snd A < 2 ^ 128)%N.
  Proof.
    intro N. unfold pp_batch_check. destruct (pp_buf s) as [|i b] eqn:E; [congruence|]. eexists. cbn [pp_msgs pp_chk pp_buf]. split; [reflexivity|].
    split; [reflexivity|]. split; [reflexivity|]. now apply check_sum_lt.
  Qed.
  Lemma batch_prefix s : prefix (pp_msgs s) (pp_msgs (batch s)).
  Proof. unfold pp_batch_check. destruct (pp_buf s); [apply prefix_refl|now eexists]. Qed.
  Lemma isched_prefix its : forall s, prefix (pp_msgs s) (pp_msgs (snd (isched its s))).
  Proof.
    induction its as [|i r IH]; intro s; cbn [isched]; [apply prefix_refl|]. destruct (Nat.leb psz (length (pp_buf s))).
    - specialize (IH (pp_push (batch s) i)). destruct (isched r (pp_push (batch s) i)) as [os q]. cbn [snd] in *. eapply prefix_trans; [apply batch_prefix|exact IH].
    - exact (IH (pp_push s i)).
  Qed.
End Sched.
