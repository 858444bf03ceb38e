(** circuit_scalability.cpp and input_scalability.cpp (arithmetic). *)
From Coq Require Import NArith List Bool Arith Lia.
From Verif Require Import Word FpModel WordProofs FpProofs ListUtil Prime61 ArithModel ArithSpec ArithThms4 ArithThms5 BoolSpec GameSpec GameArithSpec
  GameArith2 AHideSpec AHideProofs AHideThms2 AppModel AppSpec AppProofs AppThms AppThms2 AppThms3 AppThms4 AppThms5.
Import ListNotations.
Ltac Zify.zify_post_hook ::= idtac.

Section Circuit.
  Variables (n : nat) (a0 b0 cr : N).
  Local Notation c := (circuit_app n a0 b0 cr).
  Lemma circuit_plain ins (Q : agate -> Prop) : length ins = 2 -> Forall canon ins ->
    Q (AIn a0) -> Q (AIn b0) -> Q (APub 4) -> Q (APub (PR - 1)) -> (forall i j, Q (AMul i j)) -> (forall i j, Q (AAdd i j)) -> (forall k, Q (ACheck k cr)) ->
    (forall k, Q (AReveal k)) -> (forall k, Q (AZero k)) ->
    pl_ok (aplain (awith_inputs ins c)) = eqm (chain_val n (nth 0 ins 0%N) (nth 1 ins 0%N)) cr /\ pl_outs (aplain (awith_inputs ins c)) = [] /\
    acount_in c = 2 /\ acount_mul c = n + 1 /\ acount_rel c = 0 /\ Forall Q c.
  Proof.
    intros Hl Hc Q1 Q2 Q3 Q4 Q5 Q6 Q7 Q8 Q9.
    destruct (chain_good ins Q n a0 b0 cr 0 (fun _ => 0%N) (fun _ => 0%N) (fun _ => 0%N) (fun _ => 0%N)) as [_ Gi Gm Gr Gk Go Gq]; auto; try lia.
    unfold P in Gk, Go. unfold circuit_app. rewrite Gk, Go. split; [|auto].
    assert (Ei : forall i, iv ins i = nth i ins 0%N) by (intro i; unfold iv; now apply canon_nth).
    rewrite !Ei. unfold eqm. rewrite (N.mod_small (chain_val _ _ _)); [reflexivity|]. rewrite chain_val_pair. apply N.mod_lt. exact prm_nz.
  Qed.
  Lemma circuit_value : (forall ins, length ins = 2 -> Forall canon ins -> pl_ok (aplain (awith_inputs ins c)) = eqm (chain_val n (nth 0 ins 0%N) (nth 1 ins 0%N)) cr) /\
    acount_in c = 2 /\ acount_mul c = n + 1 /\ acount_rel c = 0 /\ Forall wf_pub c.
  Proof.
    split.
    - intros ins Hl Hc. apply (circuit_plain ins (fun _ => True)); auto.
    - apply (circuit_plain (repeat 0%N 2) wf_pub (repeat_length _ _) (repeat_canon _)); try (now intros).
  Qed.
  Lemma circuit_sound : rarely_fooled c any (fun ins => eqm (chain_val n (nth 0 ins 0%N) (nth 1 ins 0%N)) cr) (n + 1) 0.
  Proof.
    destruct circuit_value as (V & E3 & E4 & E5 & E6). apply fooled_general; try assumption.
    intros ins outs Hl Hc _ _ Hk. rewrite E3 in Hl. now rewrite (V ins Hl Hc) in Hk.
  Qed.
  Lemma circuit_fed : fed c = [a0; b0].
  Proof.
    unfold circuit_app, chain. cbn [obj start next code app].
    assert (L : let '(_, _, c) := for_ n ch_step (0, 1, {| code := [AIn a0; AIn b0; APub 4]; next := 3 |}) in fed (code c) = [a0; b0]).
    { apply (for_ind (fun _ (s : nat * nat * ctx) => let '(_, _, c) := s in fed (code c) = [a0; b0])); [reflexivity|].
      intros i [[a b] c] _ Ec. unfold ch_step. cbn [obj code]. rewrite !fed_app. cbn [fed]. now rewrite !app_nil_r. }
    destruct (for_ n ch_step _) as [[a b] c]. cbn [query code]. rewrite !fed_app. cbn [fed]. now rewrite !app_nil_r.
  Qed.
  Lemma circuit_honest : canon a0 -> canon b0 -> cr = chain_val n a0 b0 -> accepted_by c c any.
  Proof.
    intros Ha Hb Hcr.
    assert (Hwf : Forall wf_honest c).
    { destruct (circuit_plain (repeat 0%N 2) wf_honest (repeat_length _ _) (repeat_canon _)) as (_ & _ & _ & _ & _ & E); try (intros; split; exact I); [..|exact E].
      - split; [exact I|exact Ha].
      - split; [exact I|exact Hb].
      - split; [reflexivity|exact I].
      - split; [reflexivity|exact I].
      - intro k. split; [exact I|]. cbn. rewrite Hcr, chain_val_pair. apply N.mod_lt. exact prm_nz. }
    pose proof (accepted_general c (fed c) any) as K. rewrite with_fed in K. apply K; [exact Hwf| |reflexivity].
    pose proof (proj1 circuit_value (fed c)) as V. rewrite with_fed in V. rewrite V.
    - rewrite circuit_fed. cbn [nth]. rewrite <- Hcr. apply N.eqb_refl.
    - now rewrite circuit_fed.
    - rewrite circuit_fed. repeat constructor; assumption.
  Qed.
End Circuit.

(** input_scalability.cpp: 2 sz inputs and nothing else *)
Lemma input_code sz w : input_app sz w = map (fun i => AIn (w i)) (seq 0 sz) ++ map (fun i => AIn (w i)) (seq 0 sz).
Proof.
  assert (L : forall k st, code (cx (for_ k (fun i => set_x i (AIn (w i))) st)) = code (cx st) ++ map (fun i => AIn (w i)) (seq 0 k)).
  { intros k st. apply (for_ind (fun k s => code (cx s) = code (cx st) ++ map (fun i => AIn (w i)) (seq 0 k))); [cbn; now rewrite app_nil_r|].
    intros i s _ E. cbn [set_x cx obj snd code]. rewrite E, seq_S, map_app, app_assoc. reflexivity. }
  unfold input_app, feed_all. rewrite !L. reflexivity.
Qed.
Lemma inputs_with (w w' : nat -> N) l : awith_inputs (map w l) (map (fun i => AIn (w' i)) l) = map (fun i => AIn (w i)) l.
Proof. induction l as [|i l IH]; [reflexivity|]. cbn [map awith_inputs]. now rewrite IH. Qed.
Lemma inputs_plain (w : nat -> N) l : forall st, pl_ok st = true -> pl_ok (fold_left pl_step (map (fun i => AIn (w i)) l) st) = true.
Proof. induction l as [|i l IH]; intros st H; [exact H|]. cbn [map fold_left]. apply IH. exact H. Qed.
Lemma input_honest sz w w' : (forall i, i < sz -> canon (w i)) -> accepted_by (input_app sz w) (input_app sz w') any.
Proof.
  intro Hw. rewrite !input_code, <- !map_app. set (l := seq 0 sz ++ seq 0 sz).
  pose proof (accepted_general (map (fun i => AIn (w' i)) l) (map w l) any) as K. rewrite inputs_with in K. apply K; [| |reflexivity].
  - apply Forall_forall. intros g Hg. apply in_map_iff in Hg. destruct Hg as (i & <- & Hi). split; [exact I|]. apply Hw.
    unfold l in Hi. apply in_app_or in Hi. destruct Hi as [Hi|Hi]; apply in_seq in Hi; lia.
  - apply inputs_plain. reflexivity.
Qed.
