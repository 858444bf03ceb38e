(** The inputs of get_hash_block while only data messages are exchanged. *)
From Coq Require Import NArith Lia List Bool Arith.
From Verif Require Import BoolIOModel BoolIOSpec BoolIOProofs BoolIOThms BoolIOThms2 MalVerSpec.
Import ListNotations.
Local Open Scope nat_scope.

Section Chal.
  Variables (bs reset : bool) (NB : nat).
  Hypothesis HNB : 1 <= NB.
  Notation run := (sq_run bs reset NB).
  Lemma tail_run os : Forall no_bits os -> forall e, e_ptr e = 0 ->
    let e' := fst (run e (compile os)) in
    e_ptr e' = 0 /\
    match hashes os with
    | 0 => e_hash e' = e_hash e /\ e_digests e' = e_digests e
    | S k => let z := if reset then [] else e_hash e in e_hash e' = z /\ e_digests e' = e_digests e ++ e_hash e :: repeat z k
    end.
  Proof.
    induction os as [|o os IH]; intros F e He; [now cbn|]. inversion F as [|? ? F1 F2]; subst. specialize (IH F2).
    unfold compile. cbn [flat_map]. fold (compile os). rewrite sq_run_app.
    assert (Fl : flush_s bs NB e = (e, [])) by now apply flush_zero.
    assert (Al : forall d, sq bs reset NB e (AAlign d) = (e, [])) by (intro d; rewrite sq_align by (easy || (rewrite He; lia)); exact Fl).
    destruct o as [b|d m| | |]; [easy| | | |]; cbn [compile1 sq_run hashes].
    - rewrite Al. destruct (sq bs reset NB e (AXfer d m)) as [e1 o1] eqn:E1. 
      assert (P : e_ptr e1 = 0 /\ e_hash e1 = e_hash e /\ e_digests e1 = e_digests e).
      { destruct d; cbn [sq] in E1; injection E1 as <- _; auto. }
      destruct P as (P1 & P2 & P3). specialize (IH e1 P1). rewrite P2, P3 in IH. cbn [app].
      destruct (run e1 (compile os)) as [e2 o2]. exact IH.
    - cbn [sq]. rewrite Fl. specialize (IH e He). destruct (run e (compile os)) as [e2 o2]. exact IH.
    - cbn [sq]. rewrite Fl. cbn [sq]. specialize (IH (get_hash reset e) He). destruct (run (get_hash reset e) (compile os)) as [e2 o2]. cbn [fst] in *.
      destruct IH as [I0 I]. split; [exact I0|]. cbn [get_hash e_hash e_digests] in I. destruct (hashes os) as [|k].
      + destruct I as [-> ->]. split; reflexivity.
      + destruct I as [-> ->]. rewrite <- app_assoc. cbn [app repeat]. destruct reset; auto.
    - cbn [sq]. specialize (IH (get_hash reset e) He). destruct (run (get_hash reset e) (compile os)) as [e2 o2]. cbn [fst] in *.
      destruct IH as [I0 I]. split; [exact I0|]. cbn [get_hash e_hash e_digests] in I. destruct (hashes os) as [|k].
      + destruct I as [-> ->]. split; reflexivity.
      + destruct I as [-> ->]. rewrite <- app_assoc. cbn [app repeat]. destruct reset; auto.
  Qed.
  Lemma ptr_run l : forall e, e_ptr e < NB -> length (e_buf e) = NB -> e_ptr (fst (run e l)) < NB /\ length (e_buf (fst (run e l))) = NB.
  Proof.
    induction l as [|a l IH]; intros e H1 H2; cbn [sq_run]; [auto|].
    pose proof (sq_ptr bs reset NB HNB e a H1 H2) as P. destruct (sq bs reset NB e a) as [e1 o1]. cbn [fst] in P.
    specialize (IH e1 (proj1 P) (proj2 P)). destruct (run e1 l) as [e2 o2]. exact IH.
  Qed.
End Chal.
Lemma sender_final bs br reset NB gs gr os c : ksteps bs br reset NB (k_init NB gs gr os) c -> k_done c ->
  1 <= NB -> length gs = NB -> k_s c = fst (sq_run bs reset NB (ep_init NB gs true) (compile (os ++ [OFlush]))).
Proof.
  intros H [E1 E2] HNB Hgs. apply (KI_reach bs br reset NB HNB gs gr os Hgs) in H.
  destruct H as (dS & dR & outS & ES & ER & HS & HR & HP). rewrite E1, app_nil_r in ES. unfold L in ES.
  now rewrite ES, HS.
Qed.
Theorem challenge_known bs br reset NB gs gr gr' pre d m tail c c0 k : 1 <= NB -> length gs = NB -> Forall no_bits tail -> hashes tail = S k ->
  ksteps bs br reset NB (k_init NB gs gr (pre ++ OData d m :: tail)) c -> k_done c ->
  ksteps bs br reset NB (k_init NB gs gr' (pre ++ [OChallenge])) c0 -> k_done c0 ->
  e_digests (k_s c) = e_digests (k_s c0) ++ repeat (if reset then [] else e_hash (k_s c0)) k.
Proof.
  intros HNB Hgs F Hk H D H0 D0.
  rewrite (sender_final _ _ _ _ _ _ _ _ H D HNB Hgs), (sender_final _ _ _ _ _ _ _ _ H0 D0 HNB Hgs). clear H D H0 D0 c c0.
  rewrite <- !app_assoc. unfold compile. rewrite !flat_map_app. cbn [app flat_map]. rewrite app_nil_r.
  fold (compile pre). rewrite !sq_run_app.
  pose proof (ptr_run bs reset NB HNB (compile pre) (ep_init NB gs true)) as P. cbn [ep_init e_ptr e_buf] in P. specialize (P ltac:(lia) Hgs).
  fold (ep_init NB gs true) in P. destruct (sq_run bs reset NB (ep_init NB gs true) (compile pre)) as [e1 o1]. cbn [fst] in P. destruct P as [P1 P2].
  cbn [compile1 app sq_run]. rewrite (sq_align bs reset NB HNB e1 (AAlign d)) by easy.
  assert (Fl : exists e2 o2, flush_s bs NB e1 = (e2, o2) /\ e_ptr e2 = 0 /\ length (e_buf e2) = NB).
  { destruct (Nat.eq_dec (e_ptr e1) 0) as [Z|Z]; [exists e1, []; now rewrite flush_zero|].
    destruct (flush_pos bs NB HNB e1 ltac:(lia) P2) as (blk & -> & Lb & _). eexists _, _. split; [reflexivity|]. auto. }
  destruct Fl as (e2 & o2 & Fl & Z2 & L2). rewrite Fl. cbn [sq]. rewrite Fl. cbn [sq].
  rewrite flush_zero by first [exact HNB|exact Z2].
  destruct (if d then (e2, m) else (add_read e2 (RdData m), [])) as [e3 o3] eqn:E3.
  assert (P : e_ptr e3 = 0 /\ e_hash e3 = e_hash e2 /\ e_digests e3 = e_digests e2).
  { destruct d; injection E3 as <- _; auto. }
  destruct P as (Q1 & Q2 & Q3).
  assert (F' : Forall no_bits (tail ++ [OFlush])) by (apply Forall_app; split; [exact F|repeat constructor]).
  assert (Hk' : hashes (tail ++ [OFlush]) = S k).
  { rewrite <- Hk. clear. induction tail as [|[] t IH]; cbn [app hashes]; auto. }
  change [AFlush] with (flat_map compile1 [OFlush]). rewrite <- flat_map_app. fold (compile (tail ++ [OFlush])).
  pose proof (tail_run bs reset NB HNB (tail ++ [OFlush]) F' e3 Q1) as T. rewrite Hk' in T. cbv zeta in T. destruct T as (_ & _ & T).
  destruct (sq_run bs reset NB e3 (compile (tail ++ [OFlush]))) as [e4 o4]. cbn [fst] in *. rewrite T, Q2, Q3.
  cbn [get_hash e_digests e_hash]. rewrite <- app_assoc. cbn [app]. destruct reset; reflexivity.
Qed.
