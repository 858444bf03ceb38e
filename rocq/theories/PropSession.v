(** C39: session life cycle and the cheating flag. *)
From Coq Require Import List Bool Arith.
From Verif Require Import SessionModel SessionSpec SessionThms.
Import ListNotations.

(** Every call, after every sequence of calls that ended without undefined behaviour or exit: the outcome is
    decided by which engines are open, and by the verdicts of the checks that end the process. *)
Theorem C39_call_outcome : forall ver tr g fl c, run ver glob0 tr = Done (g, fl) ->
  (step ver g c = UB <-> ~ safe tr c) /\
  (step ver g c = Exit <-> safe tr c /\ exits tr c) /\
  ((exists r, step ver g c = Done r) <-> safe tr c /\ ~ exits tr c).
Proof. exact call_outcome. Qed.
Theorem C39_defined_runs : forall ver tr, (exists r, run ver glob0 tr = Done r) <->
  forall pre c post, tr = pre ++ c :: post -> safe pre c /\ ~ exits pre c.
Proof. exact run_defined. Qed.

(** The flag of every finalize_zk_bool in a run: number [finals pre] in the list of returned flags. *)
Theorem C39_flag_iff_failure : forall ver pre p q d post g fl,
  run ver glob0 (pre ++ FinalBool p q d :: post) = Done (g, fl) ->
  (nth (finals pre) fl false = true <-> ver = true /\ failure_since_setup (pre ++ [FinalBool p q d])).
Proof. exact flag_iff. Qed.
Theorem C39_one_flag_per_finalize : forall ver tr g fl, run ver glob0 tr = Done (g, fl) -> length fl = finals tr.
Proof. exact flags_count. Qed.
(** The prover's process never sees a flag. *)
Theorem C39_prover_never_flags : forall tr g fl, run false glob0 tr = Done (g, fl) ->
  fl = repeat false (finals tr) /\ g_msg g = [].
Proof. exact prover_flags. Qed.

(** Any number of sessions in the intended order run without undefined behaviour, and the flag of each one
    says exactly whether one of its own checks failed. *)
Theorem C39_sessions : forall ver conv ss, Forall (fun s => Forall (use_ok conv) (s_uses s)) ss ->
  exists g, run ver glob0 (flat_map (session_calls conv) ss) = Done (g, map (fun s => ver && session_fails s) ss).
Proof. exact sessions_run. Qed.

(** The conversion object is deleted again by every later finalize_zk_arith, unless the arithmetic engine was
    set up with conversion again in between. *)
Theorem C39_double_delete : forall ver pre co p zo mid co' p' zo' r,
  In (SetupArith true) pre -> (forall c, In c mid -> c <> SetupArith true) ->
  run ver glob0 (pre ++ FinalArith co p zo :: mid) = Done r ->
  run ver glob0 (pre ++ FinalArith co p zo :: mid ++ [FinalArith co' p' zo']) = UB.
Proof. exact double_delete. Qed.

(** Failures recorded after finalize_zk_bool (pending arithmetic proofs, when that engine is finalised last)
    do not reach any flag. *)
Theorem C39_late_failures_lost : forall ver pre p q d post post' r r',
  run ver glob0 (pre ++ FinalBool p q d :: post) = Done r ->
  run ver glob0 (pre ++ FinalBool p q d :: post') = Done r' ->
  nth (finals pre) (snd r) false = nth (finals pre) (snd r') false.
Proof. exact late_failures_lost. Qed.
(** "every failed proof of a session is reported" does not hold: finalising the boolean engine first loses it *)
Theorem C39_every_failure_reported_refuted :
  exists tr g, run true glob0 tr = Done (g, [false]) /\ In (FinalArith true (Some false) true) tr /\
               g_msg g <> [].
Proof.
  exists [SetupBool; SetupArith false; ArithUse; FinalBool None (Some true) true; FinalArith true (Some false) true].
  eexists. split; [vm_compute; reflexivity|]. split; [cbn; tauto|discriminate].
Qed.

(** The conversion object keeps the boolean key it was set up with: after another setup_zk_bool the two differ. *)
Theorem C39_conversion_key : forall ver pre mid g fl,
  run ver glob0 (pre ++ SetupArith true :: mid) = Done (g, fl) ->
  (forall c, In c mid -> c <> SetupArith true) ->
  (g_key g = g_prot g <-> ~ In SetupBool mid).
Proof. exact conversion_key. Qed.

(** The sequence of the property: double deletion; and the hypotheses are met by real runs *)
Example C39_example_double :
  run true glob0 [SetupBool; SetupArith true; Convert; FinalArith true None true;
                  SetupArith false; ArithUse; FinalArith true None true] = UB
  /\ exists r, run true glob0 [SetupBool; SetupArith true; Convert; FinalArith true None true;
                  SetupArith false; ArithUse] = Done r.
Proof. split; [vm_compute; reflexivity|eexists; vm_compute; reflexivity]. Qed.
Example C39_example_flags :
  exists g, run true glob0 (flat_map (session_calls true)
    [{| s_uses := [BoolBatch true; Convert; ArithBatch false]; s_conv_poly := None; s_poly := None; s_and := Some true; s_dig := true |};
     {| s_uses := [BoolBatch true; Convert]; s_conv_poly := Some true; s_poly := None; s_and := Some true; s_dig := true |};
     {| s_uses := []; s_conv_poly := None; s_poly := None; s_and := None; s_dig := false |}])
  = Done (g, [true; false; true]).
Proof. eexists. vm_compute. reflexivity. Qed.
(** a null conversion set-up exits, a use after finalisation is undefined *)
Example C39_example_outcomes :
  run true glob0 [SetupArith true] = Exit /\
  run true glob0 [SetupBool; FinalBool None None true; BoolBatch true] = UB /\
  run true glob0 [SetupBool; FinalBool None None true; SetupArith true] = UB.
Proof. repeat split; vm_compute; reflexivity. Qed.

Print Assumptions C39_call_outcome.
Print Assumptions C39_defined_runs.
Print Assumptions C39_flag_iff_failure.
Print Assumptions C39_one_flag_per_finalize.
Print Assumptions C39_prover_never_flags.
Print Assumptions C39_sessions.
Print Assumptions C39_double_delete.
Print Assumptions C39_late_failures_lost.
Print Assumptions C39_every_failure_reported_refuted.
Print Assumptions C39_conversion_key.
