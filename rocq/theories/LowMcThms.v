(** LowMC: whole programs, sessions, and invertibility. *)
From Coq Require Import NArith List Bool Arith Lia Permutation.
From Verif Require Import Word WordProofs GF128 GF128Ring BoolModel BoolSpec BoolProofs BoolAlg BoolThms BoolThms2.
From Verif Require Import LowMcModel LowMcSpec LowMcProofs LowMcCirc.
Import ListNotations.
Ltac Zify.zify_post_hook ::= idtac.

Lemma wires_cons ws g gs : wires ws (g :: gs) = wires (ws ++ [gval ws g]) gs.
Proof. reflexivity. Qed.
Lemma wires_in x : forall ws, wires ws (map GIn x) = ws ++ x.
Proof.
  induction x as [|b x IH]; intro ws; cbn [map]; [symmetry; apply app_nil_r|].
  rewrite wires_cons, IH, <- app_assoc. reflexivity.
Qed.
Lemma wires_pub x : forall ws, wires ws (map GPub x) = ws ++ x.
Proof.
  induction x as [|b x IH]; intro ws; cbn [map]; [symmetry; apply app_nil_r|].
  rewrite wires_cons, IH, <- app_assoc. reflexivity.
Qed.
Lemma plain_reveal ct : forall ws outs, plain_eval ws outs (map GReveal ct) = (ws, outs ++ map (pwire ws) ct).
Proof.
  induction ct as [|i ct IH]; intros ws outs; cbn; [now rewrite app_nil_r|].
  rewrite IH, <- app_assoc. reflexivity.
Qed.
Lemma count_in x : count_and (map GIn x) = 0. Proof. induction x; cbn; auto. Qed.
Lemma count_pub x : count_and (map GPub x) = 0. Proof. induction x; cbn; auto. Qed.
Lemma count_reveal x : count_and (map GReveal x) = 0. Proof. induction x; cbn; auto. Qed.
Definition norev (g : gate) : Prop := match g with GReveal _ => False | _ => True end.
Lemma pure_norev gs : Forall pure gs -> Forall norev gs.
Proof. apply Forall_impl. now intros []. Qed.
Lemma norev_in x : Forall norev (map GIn x).
Proof. apply Forall_forall. intros g Hg. apply in_map_iff in Hg. destruct Hg as [? [<- _]]. exact I. Qed.
Lemma norev_pub x : Forall norev (map GPub x).
Proof. apply Forall_forall. intros g Hg. apply in_map_iff in Hg. destruct Hg as [? [<- _]]. exact I. Qed.

Section Prog.
  Variables (nb n k nr : nat) (lin rc km : list bool).
  Hypothesis (Hk : 1 <= k) (Hn : 1 <= n) (Hnb : 3 * nb <= n) (Hrc : length rc = nr * n).
  Let g0 (key : list bool) := map GIn key ++ [GXor 0 0] ++ map GPub rc.
  Lemma wires_g0 key : wires [] (g0 key) = key ++ false :: rc.
  Proof.
    unfold g0. rewrite wires_app, wires_in. cbn [app]. rewrite wires_cons. cbn [gval].
    rewrite xorb_nilpotent, wires_pub, <- app_assoc. reflexivity.
  Qed.
  Lemma program_spec key msg nblocks : length key = k -> length msg = nblocks * n ->
    plain_outputs (lowmc_program nb n k nr lin rc km key msg nblocks) =
      encrypt nb n nr lin rc (keyschedule n k nr km key) msg nblocks /\
    count_and (lowmc_program nb n k nr lin rc km key msg nblocks) = nblocks * (nr * (3 * nb)).
  Proof.
    intros Lk Lm. unfold lowmc_program, lowmc_setup. fold (g0 key).
    assert (L0 : length (g0 key) = length (wires [] (g0 key))) by (rewrite wires_length; reflexivity).
    pose proof (wires_g0 key) as W0.
    set (w0 := wires [] (g0 key)) in *.
    assert (Z : length key < length w0 /\ pwire w0 (length key) = false).
    { rewrite W0, app_length. cbn [length]. split; [lia|]. unfold pwire.
      rewrite app_nth2 by lia. now rewrite Nat.sub_diag. }
    assert (HK : holds w0 (seq 0 (length key)) key).
    { rewrite W0. apply holds_app. apply (holds_new [] key). }
    assert (HR : holds w0 (seq (length key + 1) (length rc)) rc).
    { rewrite W0. change (key ++ false :: rc) with (key ++ [false] ++ rc). rewrite app_assoc.
      replace (length key + 1) with (length (key ++ [false])) by (rewrite app_length; reflexivity).
      apply holds_new. }
    destruct Z as [Z1 Z2].
    pose proof (does_keyschedule nb n k nr (length key) w0 Z1 Z2 Hk Hn Hnb km (seq 0 (length key)) key HK Lk) as DK.
    rewrite L0.
    destruct (g_keyschedule n k nr (length key) (length w0) km (seq 0 (length key))) as [g1 rk].
    destruct DK as [P1 H1 A1]. cbn [fst snd] in *.
    assert (N0 : Forall norev (g0 key)).
    { unfold g0. apply Forall_app. split; [apply norev_in|]. constructor; [exact I|apply norev_pub]. }
    assert (L1 : length (g0 key ++ g1) = length (wires w0 g1)).
    { rewrite app_length, L0, wires_length. reflexivity. }
    assert (W1 : wires [] ((g0 key ++ g1) ++ map GIn msg) = wires w0 g1 ++ msg).
    { rewrite !wires_app, wires_in. reflexivity. }
    set (w1 := wires w0 g1) in *.
    assert (L2 : length ((g0 key ++ g1) ++ map GIn msg) = length (w1 ++ msg)).
    { rewrite app_length, L1, map_length, app_length. reflexivity. }
    rewrite L1, L2.
    destruct (wires_ext g1 w0) as [new [_ En]]. fold w1 in En.
    assert (DE : does (w1 ++ msg)
       (g_encrypt nb n nr (length key) (length (w1 ++ msg)) lin (seq (length key + 1) (length rc)) rk
                  (seq (length w1) (length msg)) nblocks)
       (encrypt nb n nr lin rc (keyschedule n k nr km key) msg nblocks) (nblocks * (nr * (3 * nb)))).
    { apply does_encrypt; auto.
      - rewrite En, !app_length. lia.
      - rewrite En, <- app_assoc, pwire_app by assumption. exact Z2.
      - rewrite En, <- app_assoc. now apply holds_app.
      - now apply holds_app.
      - unfold keyschedule. rewrite (flat_map_length_const _ n), seq_length; auto. intro. apply mul_key_length.
      - apply holds_new. }
    destruct (g_encrypt nb n nr (length key) (length (w1 ++ msg)) lin (seq (length key + 1) (length rc)) rk
                  (seq (length w1) (length msg)) nblocks) as [g2 ct].
    destruct DE as [P2 [F2 E2] A2]. cbn [fst snd] in *. split.
    - unfold plain_outputs. rewrite app_assoc.
      rewrite plain_eval_pure.
      2: { apply Forall_app. split; [apply Forall_app; split; [apply Forall_app; split|]|];
             auto using pure_norev, norev_in. }
      rewrite plain_reveal. cbn [snd app]. rewrite <- E2. now rewrite wires_app, W1.
    - rewrite !ands_app, count_in, A1, A2, count_reveal. unfold g0. rewrite ands_app, count_in. cbn. rewrite count_pub. lia.
  Qed.
End Prog.

(** * Changing the private inputs *)
Definition noin (g : gate) : Prop := match g with GIn _ => False | _ => True end.
Lemma with_inputs_in : forall a x ins c, length a = length x ->
  with_inputs (a ++ ins) (map GIn x ++ c) = map GIn a ++ with_inputs ins c.
Proof.
  induction a as [|b a IH]; intros [|y x] ins c H; cbn in *; try lia; auto. f_equal. apply IH. lia.
Qed.
Lemma with_inputs_noin ins : forall gs c, Forall noin gs -> with_inputs ins (gs ++ c) = gs ++ with_inputs ins c.
Proof.
  induction gs as [|g gs IH]; intros c H; [reflexivity|]. inversion H as [|? ? Hg Hgs]; subst.
  destruct g; cbn [app with_inputs]; try easy; now rewrite IH.
Qed.
Lemma noin_pub x : Forall noin (map GPub x).
Proof. apply Forall_forall. intros g Hg. apply in_map_iff in Hg. destruct Hg as [? [<- _]]. exact I. Qed.
Lemma noin_reveal x : Forall noin (map GReveal x).
Proof. apply Forall_forall. intros g Hg. apply in_map_iff in Hg. destruct Hg as [? [<- _]]. exact I. Qed.
Lemma noin_pure gs : Forall pure gs -> Forall noin gs.
Proof. apply Forall_impl. now intros []. Qed.

(** the emitted gates are pure whatever the arguments *)
Lemma pure_xor w a b len : Forall pure (fst (g_xor w a b len)).
Proof. apply pure_xors. Qed.
Lemma pure_fold {A} (f : code -> A -> code) l : forall c,
  (forall c a, Forall pure (fst c) -> Forall pure (fst (f c a))) ->
  Forall pure (fst c) -> Forall pure (fst (fold_left f l c)).
Proof. induction l; intros c Hf Hc; cbn; auto. Qed.
Lemma pure_sub nb w st : Forall pure (fst (g_substitution nb w st)).
Proof.
  apply pure_fold; [|constructor]. intros [gs st'] i H. cbn [g_sub_box fst] in *.
  apply Forall_app. split; auto. repeat constructor.
Qed.
Lemma pure_mul n z w m v : Forall pure (fst (g_mul_lin n z w m v)).
Proof.
  apply pure_fold; [|constructor]. intros [gs st'] i H. cbn [g_mul_row fst] in *.
  apply Forall_app. split; auto. apply pure_xors.
Qed.
Lemma pure_loop f w is : (forall w i, Forall pure (fst (f w i))) -> Forall pure (fst (g_loop f w is)).
Proof.
  intro Hf. apply pure_fold; [|constructor]. intros [gs os] i H. cbn [fst] in *.
  specialize (Hf (w + length gs) i). destruct (f (w + length gs) i) as [gs' os']. now apply Forall_app.
Qed.
Lemma pure_keybit k z w m key i : Forall pure (fst (g_key_bit k z w m key i)).
Proof.
  unfold g_key_bit.
  assert (H : forall l c, Forall pure (fst c) -> Forall pure (fst (fold_left (g_key_step k z w m key i) l c))).
  { induction l as [|j l IH]; intros c Hc; cbn [fold_left]; auto. apply IH. destruct c as [gs o].
    cbn [g_key_step fst] in *. apply Forall_app. split; auto. repeat constructor. }
  apply H. constructor.
Qed.
Lemma pure_keyschedule n k nr z w km key : Forall pure (fst (g_keyschedule n k nr z w km key)).
Proof.
  apply pure_loop. intros w1 r. apply pure_loop. intros w2 i.
  pose proof (pure_keybit k z w2 (skipn (r * n * k) km) key i) as H.
  now destruct (g_key_bit k z w2 (skipn (r * n * k) km) key i).
Qed.
Lemma pure_round nb n z w lin rc rk c r : Forall pure (fst c) -> Forall pure (fst (g_round nb n z w lin rc rk c r)).
Proof.
  destruct c as [gs st]. cbn [fst]. intro H. unfold g_round.
  pose proof (pure_sub nb (w + length gs) st) as H1. destruct (g_substitution nb (w + length gs) st) as [g1 s1].
  pose proof (pure_mul n z (w + length (gs ++ g1)) (skipn ((r - 1) * n * n) lin) s1) as H2.
  destruct (g_mul_lin n z _ _ s1) as [g2 s2].
  pose proof (pure_xor (w + length ((gs ++ g1) ++ g2)) s2 (skipn ((r - 1) * n) rc) n) as H3.
  destruct (g_xor _ s2 _ n) as [g3 s3].
  pose proof (pure_xor (w + length (((gs ++ g1) ++ g2) ++ g3)) s3 (skipn (r * n) rk) n) as H4.
  destruct (g_xor _ s3 _ n) as [g4 s4]. cbn [fst] in *.
  repeat (apply Forall_app; split); auto.
Qed.
Lemma pure_encrypt nb n nr z w lin rc rk msg nblocks : Forall pure (fst (g_encrypt nb n nr z w lin rc rk msg nblocks)).
Proof.
  apply pure_loop. intros w1 i. apply pure_fold; [|apply pure_xor]. intros c r. apply pure_round.
Qed.

Lemma program_with_inputs nb n k nr lin rc km key msg key' msg' nblocks :
  length key' = length key -> length msg' = length msg ->
  with_inputs (key' ++ msg') (lowmc_program nb n k nr lin rc km key msg nblocks) =
  lowmc_program nb n k nr lin rc km key' msg' nblocks.
Proof.
  intros Lk Lm. unfold lowmc_program, lowmc_setup.
  rewrite !app_length, !map_length, Lk.
  pose proof (pure_keyschedule n k nr (length key) (length key + (length [GXor 0 0] + length rc)) km (seq 0 (length key))) as P1.
  destruct (g_keyschedule n k nr (length key) (length key + (length [GXor 0 0] + length rc)) km (seq 0 (length key))) as [g1 rk].
  cbn [fst] in P1. rewrite !app_length, !map_length, Lm, Lk.
  match goal with |- context [g_encrypt ?a ?b ?c ?d ?e ?f ?g ?h ?i ?j] =>
    pose proof (pure_encrypt a b c d e f g h i j) as P2; destruct (g_encrypt a b c d e f g h i j) as [g2 ct] end.
  cbn [fst] in P2. rewrite <- !app_assoc.
  rewrite with_inputs_in by assumption. f_equal.
  rewrite with_inputs_noin by (repeat constructor). f_equal.
  rewrite with_inputs_noin by apply noin_pub. f_equal.
  rewrite with_inputs_noin by now apply noin_pure. f_equal.
  rewrite <- (app_nil_r msg'). rewrite with_inputs_in by assumption. rewrite app_nil_r. f_equal.
  rewrite with_inputs_noin by now apply noin_pure. f_equal.
  rewrite <- (app_nil_r (map GReveal ct)). rewrite with_inputs_noin by apply noin_reveal. reflexivity.
Qed.

(** number of committed private inputs *)
Fixpoint count_ins (c : list gate) : nat :=
  match c with [] => 0 | GIn _ :: c' => S (count_ins c') | _ :: c' => count_ins c' end.
Lemma c_ins_length pM csz bitmsg c : length (c_ins (commit pM csz bitmsg c)) = count_ins c.
Proof.
  unfold commit.
  assert (H : forall c s, length (c_ins (fold_left (c_step pM csz bitmsg) c s)) = length (c_ins s) + count_ins c).
  { clear c. induction c as [|g c IH]; intro s; cbn [fold_left]; [cbn; lia|]. rewrite IH.
    destruct g; cbn [c_step c_ins c_add count_ins]; try reflexivity.
    - rewrite app_length. cbn. lia.
    - destruct (Nat.eqb (length (c_errs s)) csz); reflexivity. }
  rewrite H. reflexivity.
Qed.
Lemma count_ins_app a b : count_ins (a ++ b) = count_ins a + count_ins b.
Proof. induction a as [|[] a IH]; cbn; auto. Qed.
Lemma count_ins_noin gs : Forall noin gs -> count_ins gs = 0.
Proof. induction 1 as [|g gs Hg _ IH]; auto. now destruct g. Qed.
Lemma count_ins_map x : count_ins (map GIn x) = length x.
Proof. induction x; cbn; auto. Qed.
Lemma program_ins nb n k nr lin rc km key msg nblocks :
  count_ins (lowmc_program nb n k nr lin rc km key msg nblocks) = length key + length msg.
Proof.
  unfold lowmc_program, lowmc_setup.
  match goal with |- context [g_keyschedule ?a ?b ?c ?d ?e ?f ?g] =>
    pose proof (pure_keyschedule a b c d e f g) as P1; destruct (g_keyschedule a b c d e f g) as [g1 rk] end.
  match goal with |- context [g_encrypt ?a ?b ?c ?d ?e ?f ?g ?h ?i ?j] =>
    pose proof (pure_encrypt a b c d e f g h i j) as P2; destruct (g_encrypt a b c d e f g h i j) as [g2 ct] end.
  cbn [fst] in *. rewrite !count_ins_app, !count_ins_map.
  rewrite (count_ins_noin g1), (count_ins_noin g2), (count_ins_noin (map GReveal ct)), (count_ins_noin (map GPub rc));
    auto using noin_pure, noin_pub, noin_reveal. cbn. lia.
Qed.

(** * Sessions *)
Section Session.
  Variables (nb n k nr : nat) (lin rc km : list bool).
  Hypothesis (Hk : 1 <= k) (Hn : 1 <= n) (Hnb : 3 * nb <= n) (Hrc : length rc = nr * n).
  Lemma program_ref key msg nblocks : length key = k -> length msg = nblocks * n ->
    plain_outputs (lowmc_program nb n k nr lin rc km key msg nblocks) =
    lowmc_ref nb n k nr lin rc km key msg nblocks.
  Proof.
    intros Lk Lm. destruct (program_spec nb n k nr lin rc km Hk Hn Hnb Hrc key msg nblocks Lk Lm) as [-> _].
    now apply encrypt_spec.
  Qed.
  (** the key and the message a prover is committed to *)
  Definition committed (pM : nat -> N) (csz : nat) (bitmsg : nat -> bool) (key msg : list bool) (nblocks : nat)
    : list bool * list bool :=
    let ins := c_ins (commit pM csz bitmsg (lowmc_program nb n k nr lin rc km key msg nblocks)) in
    (firstn k ins, skipn k ins).
  Lemma session_sound r0 r1 pM threads csz seeds bitmsg chkmsg (D : Type) (Deqb : D -> D -> bool)
      (H : list N -> D) dig key msg nblocks deltas :
    (forall a b, Deqb a b = true -> a = b) -> NoDup deltas -> length key = k -> length msg = nblocks * n ->
    let c := lowmc_program nb n k nr lin rc km key msg nblocks in
    let cm := commit pM csz bitmsg c in
    let exec d := ver_exec r0 r1 (cot_key pM d) d threads csz seeds bitmsg chkmsg c in
    let '(ckey, cmsg) := committed pM csz bitmsg key msg nblocks in
    (forall d, In d deltas -> valid_delta d /\
       exists v, exec d = Some v /\ ver_finalize Deqb H v dig = false /\
                 v_outs v <> lowmc_ref nb n k nr lin rc km ckey cmsg nblocks) ->
    length deltas <= 2 \/
    (exists q errs rs, nth_error (batches cm) q = Some errs /\ In true errs /\
       and_ranges threads (length errs) = Some rs /\ combined_error rs (seeds q) errs = 0%N) \/
    (exists d1 d2 v1 v2, In d1 deltas /\ In d2 deltas /\ exec d1 = Some v1 /\ exec d2 = Some v2 /\
       v_hash v1 <> v_hash v2 /\ H (v_hash v1) = H (v_hash v2)).
  Proof.
    intros Heq Hnd Lk Lm c cm exec. unfold committed. fold c. fold cm. intro Hall.
    apply (session_soundness r0 r1 pM threads csz seeds bitmsg chkmsg D Deqb H dig c deltas Heq Hnd).
    intros d Hd. destruct (Hall d Hd) as [Hv [v [Ev [Fv Ov]]]]. split; auto. exists v. repeat split; auto.
    fold cm. intro E. apply Ov. rewrite E.
    assert (Li : length (c_ins cm) = length key + length msg).
    { unfold cm, c. now rewrite c_ins_length, program_ins. }
    rewrite <- (firstn_skipn k (c_ins cm)) at 1. unfold c.
    rewrite program_with_inputs; [|rewrite firstn_length; lia|rewrite skipn_length; lia].
    apply program_ref; [rewrite firstn_length|rewrite skipn_length]; lia.
  Qed.
End Session.

(** * Invertibility *)
Lemma sbox_layer_inj nb : forall a b, length a = length b -> sbox_layer nb a = sbox_layer nb b -> a = b.
Proof.
  induction nb; [now intros [|] [|]|].
  intros [|a0 [|a1 [|a2 a]]] [|b0 [|b1 [|b2 b]]] L E; cbn [length] in L; try lia; auto.
  cbn [sbox_layer] in E. rewrite <- !sbox_formula_table in E. unfold sbox_formula in E. cbn [app] in E.
  injection E as E0 E1 E2 E. rewrite (IHnb a b); [|lia|assumption].
  destruct a0, a1, a2, b0, b1, b2; cbn in *; congruence.
Qed.
Lemma vxor_inj : forall a b c, length a = length c -> length b = length c -> vxor a c = vxor b c -> a = b.
Proof.
  induction a as [|x a IH]; intros [|y b] [|z c] La Lb E; cbn in *; try lia; auto.
  injection E as E0 E. f_equal; [destruct x, y, z; cbn in *; congruence|]. apply (IH b c); auto; lia.
Qed.
(** all bit vectors of a given length *)
Fixpoint vecs (n : nat) : list (list bool) :=
  match n with 0 => [[]] | S n' => map (cons false) (vecs n') ++ map (cons true) (vecs n') end.
Lemma in_vecs n : forall v, In v (vecs n) <-> length v = n.
Proof.
  induction n; intro v; cbn [vecs].
  - split; [intros [<-|[]]; reflexivity|]. destruct v; cbn; [now left|lia].
  - rewrite in_app_iff, !in_map_iff. split.
    + intros [[u [<- Hu]]|[u [<- Hu]]]; apply IHn in Hu; cbn; lia.
    + destruct v as [|b v]; cbn; [lia|]. intro L. destruct b; [right|left]; exists v; split; auto; apply IHn; lia.
Qed.
Lemma vecs_nodup n : NoDup (vecs n).
Proof.
  assert (J : forall b l, NoDup l -> NoDup (map (@cons bool b) l)).
  { intros b l H. apply FinFun.Injective_map_NoDup; auto. intros x y E. congruence. }
  induction n; cbn; [repeat constructor; auto|].
  assert (A : forall l1 l2 : list (list bool), NoDup l1 -> NoDup l2 -> (forall x, In x l1 -> ~ In x l2) -> NoDup (l1 ++ l2)).
  { induction l1 as [|x l1 IH]; cbn; intros l2 H1 H2 Hd; auto. inversion H1; subst. constructor.
    - rewrite in_app_iff. intros [|]; [contradiction|]. eapply Hd; eauto.
    - apply IH; auto. }
  apply A; auto. intros x Hx Hy. apply in_map_iff in Hx, Hy. destruct Hx as [u [<- _]], Hy as [v [E _]]. congruence.
Qed.
Lemma inj_surj n (f : list bool -> list bool) : (forall v, length v = n -> length (f v) = n) ->
  (forall a b, length a = n -> length b = n -> f a = f b -> a = b) ->
  forall w, length w = n -> exists v, length v = n /\ f v = w.
Proof.
  intros Hf Hi w Hw.
  assert (ND : NoDup (map f (vecs n))).
  { assert (G : forall l, (forall v, In v l -> length v = n) -> NoDup l -> NoDup (map f l)).
    { induction l as [|x l IH]; intros Hl Hd; cbn; [constructor|]. inversion Hd; subst. constructor.
      - rewrite in_map_iff. intros [y [E Hy]]. apply Hi in E; [subst; contradiction|apply Hl; now right|apply Hl; now left].
      - apply IH; auto. intros; apply Hl; now right. }
    apply G; [intros v; apply in_vecs|apply vecs_nodup]. }
  assert (I : In w (map f (vecs n))).
  { assert (Inc : incl (vecs n) (map f (vecs n))); [|now apply Inc, in_vecs].
    apply (NoDup_length_incl ND); [now rewrite map_length|]. intros x Hx. apply in_map_iff in Hx. destruct Hx as [v [<- Hv]]. apply in_vecs in Hv. apply in_vecs. auto. }
  apply in_map_iff in I. destruct I as [v [E Hv]]. exists v. split; auto. now apply in_vecs.
Qed.
Definition lin_injective (A : nat -> nat -> bool) (n : nat) : Prop :=
  forall a b, length a = n -> length b = n -> mat_vec A n n a = mat_vec A n n b -> a = b.
Section Inv.
  Variables (nb n k : nat) (L : nat -> nat -> nat -> bool) (C : nat -> list bool) (K : nat -> nat -> nat -> bool).
  Variable nr : nat.
  Hypothesis HC : forall r, 1 <= r <= nr -> length (C r) = n.
  Let enc := lowmc nb n k L C K.
  Lemma enc_length r key m : r <= nr -> length m = n -> length (enc r key m) = n.
  Proof.
    intros Hr Hm. destruct r; cbn -[Nat.min]; unfold round_key.
    - rewrite vxor_length, mat_vec_length. lia.
    - rewrite !vxor_length, !mat_vec_length, HC by lia. lia.
  Qed.
  Lemma round_key_length key r : length (round_key n k K key r) = n.
  Proof. apply mat_vec_length. Qed.
  Lemma enc_inj key r : r <= nr -> (forall q, 1 <= q <= r -> lin_injective (L q) n) ->
    forall a b, length a = n -> length b = n -> enc r key a = enc r key b -> a = b.
  Proof.
    induction r as [|r IH]; intros Hr HL a b La Lb E.
    - unfold enc in E. cbn [lowmc] in E. apply vxor_inj in E; auto; rewrite round_key_length; auto.
    - apply IH; auto; [lia|intros; apply HL; lia|].
      assert (Ea := enc_length r key a ltac:(lia) La). assert (Eb := enc_length r key b ltac:(lia) Lb).
      unfold enc in E. cbn [lowmc] in E. fold enc in E.
      apply vxor_inj in E; [|rewrite vxor_length, mat_vec_length, HC, round_key_length by lia; lia..].
      apply vxor_inj in E; [|rewrite mat_vec_length, HC by lia; lia..].
      apply (HL (S r)) in E; [|lia|now rewrite sbox_layer_length..].
      now apply sbox_layer_inj in E; [|congruence].
  Qed.
  Lemma enc_singular key q : 1 <= q <= nr -> (forall r, 1 <= r < q -> lin_injective (L r) n) ->
    (exists a b, length a = n /\ length b = n /\ a <> b /\ mat_vec (L q) n n a = mat_vec (L q) n n b) ->
    exists x y, length x = n /\ length y = n /\ x <> y /\ enc nr key x = enc nr key y.
  Proof.
    intros Hq HL [a [b [La [Lb [Hab E]]]]]. destruct q as [|q]; [lia|].
    assert (Hs : forall w, length w = n -> exists v, length v = n /\ sbox_layer nb (enc q key v) = w).
    { apply inj_surj.
      - intros v Lv. rewrite sbox_layer_length. apply enc_length; auto. lia.
      - intros u v Lu Lv Euv. apply (enc_inj key q); auto; [lia|intros; apply HL; lia|].
        apply sbox_layer_inj in Euv; auto. rewrite !enc_length; auto; lia. }
    destruct (Hs a La) as [x [Lx Ex]], (Hs b Lb) as [y [Ly Ey]].
    exists x, y. repeat split; auto; [congruence|].
    assert (E1 : forall r, S q <= r -> enc r key x = enc r key y); [|apply E1; lia].
    intros r Hr. induction Hr as [|r Hr IH]; unfold enc; cbn [lowmc]; fold enc; [|now rewrite IH].
    rewrite Ex, Ey, E. reflexivity.
  Qed.
  (** decidability of injectivity on a finite domain *)
  Lemma lin_injective_dec q : lin_injective (L q) n \/
    exists a b, length a = n /\ length b = n /\ a <> b /\ mat_vec (L q) n n a = mat_vec (L q) n n b.
  Proof.
    assert (Bd : forall x y : list bool, {x = y} + {x <> y}) by (apply list_eq_dec, bool_dec).
    destruct (Exists_dec (fun ab => fst ab <> snd ab /\ mat_vec (L q) n n (fst ab) = mat_vec (L q) n n (snd ab))
                (list_prod (vecs n) (vecs n))) as [X|X].
    - intros [a b]. cbn. destruct (Bd a b), (Bd (mat_vec (L q) n n a) (mat_vec (L q) n n b)); intuition.
    - right. apply Exists_exists in X. destruct X as [[a b] [I [N E]]]. apply in_prod_iff in I.
      exists a, b. rewrite <- !in_vecs. tauto.
    - left. intros a b La Lb E. destruct (Bd a b) as [|N]; auto. exfalso. apply X. apply Exists_exists.
      exists (a, b). split; [apply in_prod_iff; now rewrite !in_vecs|]. auto.
  Qed.
  Lemma enc_injective_iff key :
    (forall a b, length a = n -> length b = n -> enc nr key a = enc nr key b -> a = b) <->
    (forall q, 1 <= q <= nr -> lin_injective (L q) n).
  Proof.
    split; [|intros H; apply enc_inj; auto].
    intros H q. induction q as [q IH] using lt_wf_ind. intro Hq.
    destruct (lin_injective_dec q) as [|X]; auto. exfalso.
    destruct (enc_singular key q Hq) as [x [y [Lx [Ly [N E]]]]]; auto.
    intros r Hr. apply IH; lia.
  Qed.
End Inv.
