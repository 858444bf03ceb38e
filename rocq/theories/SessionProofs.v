From Coq Require Import List Bool Arith Lia.
From Verif Require Import SessionModel SessionSpec.
Import ListNotations.

(** * Heap *)
Lemma find_drop h i j : find (drop h i) j = if Nat.eqb j i then None else find h j.
Proof.
  induction h as [|[k r] h IH]; [cbn; now destruct (Nat.eqb j i)|].
  unfold drop in *. cbn [filter fst]. destruct (Nat.eqb_spec k i) as [E|N]; cbn [negb find].
  - subst k. rewrite IH. destruct (Nat.eqb_spec j i) as [E|M]; [easy|].
    destruct (Nat.eqb_spec i j) as [E|M']; [congruence|easy].
  - rewrite IH. destruct (Nat.eqb_spec k j) as [E|M]; [|easy].
    destruct (Nat.eqb_spec j i); [congruence|easy].
Qed.

(** * Status of an engine, computed *)
Inductive status := Never | Open | Closed.
Definition bstat (s : status) (c : call) : status :=
  match c with
  | SetupBool => Open
  | FinalBool _ _ _ => match s with Never => Never | _ => Closed end
  | _ => s end.
Definition astat (s : status) (c : call) : status :=
  match c with
  | SetupArith _ => Open
  | FinalArith _ _ _ => match s with Never => Never | _ => Closed end
  | _ => s end.
Definition cstat (s : status) (c : call) : status :=
  match c with
  | SetupArith true => Open
  | FinalArith _ _ _ => match s with Never => Never | _ => Closed end
  | _ => s end.
Definition bst tr := fold_left bstat tr Never.
Definition ast tr := fold_left astat tr Never.
Definition cst tr := fold_left cstat tr Never.
Lemma bst_snoc tr c : bst (tr ++ [c]) = bstat (bst tr) c.
Proof. unfold bst. now rewrite fold_left_app. Qed.
Lemma ast_snoc tr c : ast (tr ++ [c]) = astat (ast tr) c.
Proof. unfold ast. now rewrite fold_left_app. Qed.
Lemma cst_snoc tr c : cst (tr ++ [c]) = cstat (cst tr) c.
Proof. unfold cst. now rewrite fold_left_app. Qed.

Lemma app_snoc_inv {A} (pre post tr : list A) s c :
  tr ++ [c] = pre ++ s :: post ->
  (post = [] /\ s = c /\ tr = pre) \/ (exists post', post = post' ++ [c] /\ tr = pre ++ s :: post').
Proof.
  destruct post as [|x post] using rev_ind; intro H.
  - apply app_inj_tail in H. destruct H; auto.
  - right. exists post. replace (pre ++ s :: post ++ [x]) with ((pre ++ s :: post) ++ [x]) in H
      by (now rewrite <- app_assoc).
    apply app_inj_tail in H. destruct H as [-> ->]. auto.
Qed.

(** generic: "the last opening call was not followed by a closing one" *)
Section Track.
  Variables (opens : call -> bool) (closes : call -> Prop).
  Definition opened_ (tr : list call) : Prop :=
    exists pre s post, tr = pre ++ s :: post /\ opens s = true /\ forall c, In c post -> ~ closes c.
  Lemma opened_snoc tr c : opened_ (tr ++ [c]) <-> opens c = true \/ (opened_ tr /\ ~ closes c).
  Proof.
    split.
    - intros (pre & s & post & E & O & P). apply app_snoc_inv in E. destruct E as [(-> & -> & ->)|(p' & -> & ->)].
      + now left.
      + right. split; [exists pre, s, p'; repeat split; auto; intros x I; apply P, in_or_app; auto|].
        apply P, in_or_app. right. now left.
    - intros [O|[(pre & s & post & -> & O & P) C]].
      + exists tr, c, []. repeat split; auto; intros x [].
      + exists pre, s, (post ++ [c]). rewrite <- app_assoc. repeat split; auto.
        intros x I. apply in_app_or in I. destruct I as [I|[<-|[]]]; auto.
  Qed.
  Lemma opened_nil : ~ opened_ [].
  Proof. intros (pre & s & post & E & _). now destruct pre. Qed.
End Track.

Lemma bool_open_iff tr : bool_open tr <-> bst tr = Open.
Proof.
  assert (G : bool_open tr <-> opened_ (fun c => match c with SetupBool => true | _ => false end) is_final_bool tr).
  { split.
    - intros (pre & post & E & P). exists pre, SetupBool, post. auto.
    - intros (pre & s & post & E & O & P). destruct s; try discriminate. exists pre, post. auto. }
  rewrite G. clear G. induction tr as [|c tr IH] using rev_ind.
  - split; [intro H; now apply opened_nil in H|discriminate].
  - rewrite opened_snoc, IH, bst_snoc. destruct c; cbn [bstat];
      try (split; [intros [X|[X _]]; [discriminate X|exact X]|intro X; right; split; [exact X|intros (a0 & b0 & d0 & Y); discriminate]]).
    + split; auto.
    + split; [intros [X|[X Y]]; [discriminate|exfalso; apply Y; unfold is_final_bool; eauto]|].
      destruct (bst tr); discriminate.
Qed.
Lemma arith_open_iff tr : arith_open tr <-> ast tr = Open.
Proof.
  assert (G : arith_open tr <-> opened_ (fun c => match c with SetupArith _ => true | _ => false end) is_final_arith tr).
  { split.
    - intros (pre & cv & post & E & P). exists pre, (SetupArith cv), post. auto.
    - intros (pre & s & post & E & O & P). destruct s; try discriminate. exists pre, conv, post. auto. }
  rewrite G. clear G. induction tr as [|c tr IH] using rev_ind.
  - split; [intro H; now apply opened_nil in H|discriminate].
  - rewrite opened_snoc, IH, ast_snoc. destruct c; cbn [astat];
      try (split; [intros [X|[X _]]; [discriminate X|exact X]|intro X; right; split; [exact X|intros (a0 & b0 & d0 & Y); discriminate]]).
    + split; auto.
    + split; [intros [X|[X Y]]; [discriminate|exfalso; apply Y; unfold is_final_arith; eauto]|].
      destruct (ast tr); discriminate.
Qed.
Lemma conv_open_iff tr : conv_open tr <-> cst tr = Open.
Proof.
  assert (G : conv_open tr <-> opened_ (fun c => match c with SetupArith true => true | _ => false end) is_final_arith tr).
  { split.
    - intros (pre & post & E & P). exists pre, (SetupArith true), post. auto.
    - intros (pre & s & post & E & O & P). destruct s; try discriminate. destruct conv; try discriminate.
      exists pre, post. auto. }
  rewrite G. clear G. induction tr as [|c tr IH] using rev_ind.
  - split; [intro H; now apply opened_nil in H|discriminate].
  - rewrite opened_snoc, IH, cst_snoc. destruct c; cbn [cstat];
      try (split; [intros [X|[X _]]; [discriminate X|exact X]|intro X; right; split; [exact X|intros (a0 & b0 & d0 & Y); discriminate]]).
    + destruct conv; [split; auto|].
      split; [intros [X|[X _]]; [discriminate X|exact X]|intro X; right; split; [exact X|intros (a0 & b0 & d0 & Y); discriminate]].
    + split; [intros [X|[X Y]]; [discriminate|exfalso; apply Y; unfold is_final_arith; eauto]|].
      destruct (cst tr); discriminate.
Qed.
Lemma bool_never_iff tr : bool_never tr <-> bst tr = Never.
Proof.
  unfold bool_never. induction tr as [|c tr IH] using rev_ind; [cbn; tauto|].
  rewrite bst_snoc, in_app_iff. destruct c; cbn [bstat In]; try (rewrite <- IH; intuition discriminate).
  - intuition (try discriminate; auto).
  - destruct (bst tr); intuition discriminate.
Qed.
Lemma arith_never_iff tr : arith_never tr <-> ast tr = Never.
Proof.
  unfold arith_never. induction tr as [|c tr IH] using rev_ind; [cbn; intuition|].
  rewrite ast_snoc. 
  assert (G : (forall cv, ~ In (SetupArith cv) (tr ++ [c])) <-> (forall cv, ~ In (SetupArith cv) tr) /\ forall cv, c <> SetupArith cv).
  { split.
    - intro H. split; intros cv I; apply (H cv), in_or_app; [now left|right; now left].
    - intros [H1 H2] cv I. apply in_app_or in I. destruct I as [I|[->|[]]]; [now apply (H1 cv)|now apply (H2 cv)]. }
  rewrite G, IH. destruct c; cbn [astat]; try (split; [tauto|intro; split; [easy|intros cv Y; discriminate]]).
  - split; [intros [_ X]; now contradiction (X conv)|discriminate].
  - destruct (ast tr); (split; [intros [X _]; try discriminate; easy|intro X; first [discriminate|split; [easy|intros cv Y; discriminate]]]).
Qed.
Lemma conv_never_iff tr : conv_never tr <-> cst tr = Never.
Proof.
  unfold conv_never. induction tr as [|c tr IH] using rev_ind; [cbn; tauto|].
  rewrite cst_snoc, in_app_iff. destruct c; cbn [cstat In]; try (rewrite <- IH; intuition discriminate).
  - destruct conv; [intuition (try discriminate; auto)|rewrite <- IH; intuition discriminate].
  - destruct (cst tr); intuition discriminate.
Qed.

(** * Invariant *)
Inductive kind := KCirc | KProt | KZk | KPoly | KConv.
Record inv (K : nat -> kind) (b a v : status) (g : glob) : Prop := {
  i_fresh : forall i r, find (h_live g) i = Some r -> i < h_next g;
  i_bool : match b with
           | Never => g_circ g = None /\ g_prot g = None
           | _ => exists c p, g_circ g = Some c /\ g_prot g = Some p /\ K c = KCirc /\ K p = KProt /\
                    c < h_next g /\ p < h_next g /\
                    (b = Closed -> find (h_live g) c = None /\ find (h_live g) p = None) /\
                    (b = Open -> find (h_live g) c = Some p /\ find (h_live g) p = Some p)
           end;
  i_arith : match a with
           | Never => g_zk g = None /\ g_poly g = None
           | _ => exists z f, g_zk g = Some z /\ g_poly g = Some f /\ K z = KZk /\ K f = KPoly /\
                    z < h_next g /\ f < h_next g /\
                    (a = Closed -> find (h_live g) z = None /\ find (h_live g) f = None) /\
                    (a = Open -> find (h_live g) z = Some z /\ find (h_live g) f = Some z)
           end;
  i_conv : match v with
           | Never => g_conv g = None
           | _ => exists w y, g_conv g = Some w /\ K w = KConv /\ K y = KZk /\ w < h_next g /\ y < h_next g /\
                    (v = Closed -> find (h_live g) w = None) /\
                    (v = Open -> find (h_live g) w = Some y /\ find (h_live g) y = Some y)
           end }.

Lemma inv0 K : inv K Never Never Never glob0.
Proof. constructor; cbn; auto. intros; discriminate. Qed.

(** new objects *)
Definition ext (K : nat -> kind) (i : nat) (k : kind) : nat -> kind := fun j => if Nat.eqb j i then k else K j.
Lemma ext_same K i k : ext K i k i = k.
Proof. unfold ext. now rewrite Nat.eqb_refl. Qed.
Lemma ext_old K i k j : j < i -> ext K i k j = K j.
Proof. intro H. unfold ext. destruct (Nat.eqb_spec j i); [lia|easy]. Qed.
Lemma fresh_none (h : list (nat * nat)) n i : (forall i r, find h i = Some r -> i < n) -> n <= i -> find h i = None.
Proof. intros H L. destruct (find h i) eqn:E; [|easy]. apply H in E. lia. Qed.
Lemma eqb_lt i j : i < j -> Nat.eqb j i = false.
Proof. intro. apply Nat.eqb_neq. lia. Qed.
Lemma kind_neq (K : nat -> kind) i j : K i <> K j -> Nat.eqb i j = false.
Proof. intro H. apply Nat.eqb_neq. now intros ->. Qed.

Ltac kneq := match goal with
  | |- context [Nat.eqb ?i ?j] => rewrite (kind_neq _ i j) by (first [congruence]) end.

(** a change of the heap that keeps the objects below [n] *)
Definition same_below (n : nat) (h h' : list (nat * nat)) : Prop := forall i, i < n -> find h' i = find h i.
Lemma inv_frame K K' b a v g g' :
  inv K b a v g ->
  g_circ g' = g_circ g -> g_prot g' = g_prot g -> g_zk g' = g_zk g -> g_poly g' = g_poly g -> g_conv g' = g_conv g ->
  h_next g <= h_next g' -> same_below (h_next g) (h_live g) (h_live g') ->
  (forall i, i < h_next g -> K' i = K i) ->
  (forall i r, find (h_live g') i = Some r -> i < h_next g') -> inv K' b a v g'.
Proof.
  intros [F B A V] E1 E2 E3 E4 E5 L S EK F'. constructor; [exact F'| | |].
  - rewrite E1, E2. destruct b; [exact B| |];
      destruct B as (c & p & H1 & H2 & H3 & H4 & H5 & H6 & H7 & H8); exists c, p;
      rewrite !EK, !S by lia; repeat split; auto; try lia; try (now apply H7); now apply H8.
  - rewrite E3, E4. destruct a; [exact A| |];
      destruct A as (c & p & H1 & H2 & H3 & H4 & H5 & H6 & H7 & H8); exists c, p;
      rewrite !EK, !S by lia; repeat split; auto; try lia; try (now apply H7); now apply H8.
  - rewrite E5. destruct v; [exact V| |];
      destruct V as (w & y & H1 & H2 & H3 & H4 & H5 & H6 & H7); exists w, y;
      rewrite !EK, !S by lia; repeat split; auto; try lia; now apply H7.
Qed.

(** what a call does, by status of the three parts *)
Definition safe_st (b a v : status) (c : call) : Prop :=
  match c with
  | SetupBool => True
  | BoolBatch _ => b = Open
  | FinalBool _ _ _ => b <> Closed
  | SetupArith cv => cv = true -> b <> Closed
  | ArithUse | ArithBatch _ => a = Open
  | Convert => v = Open /\ b = Open
  | FinalArith _ _ _ => a <> Closed /\ v <> Closed
  end.
Definition exits_st (b a v : status) (c : call) : Prop :=
  match c with
  | SetupArith true => b = Never
  | FinalArith conv_ok _ zk_ok => (v = Open /\ conv_ok = false) \/ (a = Open /\ zk_ok = false)
  | _ => False
  end.
(** messages recorded by a call *)
Definition rec_st (b a : status) (c : call) : list bool :=
  match c with
  | BoolBatch ok | ArithBatch ok => [ok]
  | FinalBool p q d => match b with Open => (match p with Some x => [x] | _ => [] end) ++
                                            (match q with Some x => [x] | _ => [] end) ++ [d]
                                  | _ => [] end
  | FinalArith _ p _ => match a, p with Open, Some x => [x] | _, _ => [] end
  | _ => []
  end.
Definition resets (c : call) : bool := match c with SetupBool => true | _ => false end.

Section Step.
  Variable ver : bool.
  Definition fails (l : list bool) : nat := length (filter negb l).

  Lemma put_length m t ok : length (put ver m t ok) = length m + if ver then fails [ok] else 0.
  Proof. unfold put, fails. destruct ver, ok; cbn; rewrite ?app_length; cbn; lia. Qed.

  Definition effect (b a v : status) (g : glob) (c : call) (g' : glob) (r : option bool) : Prop :=
    (exists K', inv K' (bstat b c) (astat a c) (cstat v c) g') /\
    length (g_msg g') = (if resets c then 0 else length (g_msg g)) + (if ver then fails (rec_st b a c) else 0) /\
    r = match c with FinalBool _ _ _ => Some (negb (Nat.eqb (length (g_msg g')) 0)) | _ => None end /\
    g_key g' = match c with SetupArith true => g_prot g | _ => g_key g end.

  Lemma step_setup_bool K b a v g : inv K b a v g ->
    exists g', step ver g SetupBool = Done (g', None) /\ effect b a v g SetupBool g' None.
  Proof.
    intros I. eexists. split; [reflexivity|]. unfold effect. cbn [bstat astat cstat resets rec_st setup_bool g_msg length].
    repeat split; [|unfold fails; now destruct ver].
    destruct I as [F B A V].
    exists (ext (ext K (h_next g) KCirc) (S (h_next g)) KProt).
    assert (KO : forall i, i < h_next g -> ext (ext K (h_next g) KCirc) (S (h_next g)) KProt i = K i).
    { intros i L. now rewrite !ext_old by lia. }
    assert (FO : forall i, i < h_next g -> find (h_live (setup_bool g)) i = find (h_live g) i).
    { intros i L. cbn [setup_bool h_live find]. now rewrite !eqb_lt by lia. }
    assert (FB : forall i r, find (h_live (setup_bool g)) i = Some r -> i < h_next (setup_bool g)).
    { intros i r. cbn [setup_bool h_live h_next find].
      destruct (Nat.eqb_spec (S (h_next g)) i); [lia|]. destruct (Nat.eqb_spec (h_next g) i); [lia|].
      intro E. apply F in E. lia. }
    constructor; [exact FB| | |].
    - exists (h_next g), (S (h_next g)). cbn [setup_bool h_live h_next g_circ g_prot].
      rewrite (ext_old _ _ _ (h_next g)), !ext_same by lia. repeat split; auto; try lia; try discriminate.
      + cbn [find]. rewrite (Nat.eqb_refl (h_next g)). destruct (Nat.eqb_spec (S (h_next g)) (h_next g)); [lia|easy].
      + cbn [find]. now rewrite Nat.eqb_refl.
    - destruct a; [exact A| |];
      destruct A as (z & f & H1 & H2 & H3 & H4 & H5 & H6 & H7 & H8); exists z, f;
      rewrite !KO, !FO by lia; cbn [setup_bool g_zk g_poly h_next]; repeat split; auto; try lia; try (now apply H7); now apply H8.
    - destruct v; [exact V| |];
      destruct V as (z & f & H1 & H2 & H3 & H4 & H5 & H6 & H7); exists z, f;
      rewrite !KO, !FO by lia; cbn [setup_bool g_conv h_next]; repeat split; auto; try lia; now apply H7.
  Qed.

  Lemma deref_spec h i r : find h i = Some r -> deref h (Some i) = Done r.
  Proof. intro E. cbn. now rewrite E. Qed.
  Lemma deref2_spec h i r q : find h i = Some r -> find h r = Some q -> deref2 h (Some i) = Done tt.
  Proof. intros E1 E2. unfold deref2. rewrite (deref_spec _ _ _ E1). cbn [bind]. now rewrite (deref_spec _ _ _ E2). Qed.
  Lemma deref2_dead h i : find h i = None -> deref2 h (Some i) = UB.
  Proof. intro E. unfold deref2. cbn. now rewrite E. Qed.

  (** a call that changes only the messages *)
  Lemma inv_msg K b a v g m k : inv K b a v g ->
    inv K b a v {| g_msg := m; g_circ := g_circ g; g_prot := g_prot g; g_zk := g_zk g; g_poly := g_poly g;
                   g_conv := g_conv g; g_key := k; h_live := h_live g; h_next := h_next g |}.
  Proof. intros [F B A V]. now constructor. Qed.

  Lemma step_bool_batch K b a v g ok : inv K b a v g ->
    (b = Open -> exists g', step ver g (BoolBatch ok) = Done (g', None) /\ effect b a v g (BoolBatch ok) g' None) /\
    (b <> Open -> step ver g (BoolBatch ok) = UB).
  Proof.
    intro I. pose proof (i_bool _ _ _ _ _ I) as B. cbn [step]. unfold bool_batch. split.
    - intros ->. destruct B as (c & p & H1 & H2 & H3 & H4 & H5 & H6 & H7 & H8). destruct (H8 eq_refl) as [E1 E2].
      rewrite H1, (deref2_spec _ _ _ _ E1 E2). cbn [bind]. eexists. split; [reflexivity|].
      unfold effect. cbn [bstat astat cstat resets rec_st g_msg g_key]. repeat split; [|apply put_length].
      exists K. rewrite <- H1. now apply inv_msg.
    - intro N. destruct b; [destruct B as [-> _]; reflexivity|easy|].
      destruct B as (c & p & H1 & _ & _ & _ & _ & _ & H7 & _). destruct (H7 eq_refl) as [E _].
      now rewrite H1, (deref2_dead _ _ E).
  Qed.

  Lemma step_arith_use K b a v g : inv K b a v g ->
    (a = Open -> exists g', step ver g ArithUse = Done (g', None) /\ effect b a v g ArithUse g' None) /\
    (a <> Open -> step ver g ArithUse = UB).
  Proof.
    intro I. pose proof (i_arith _ _ _ _ _ I) as A. cbn [step]. unfold arith_use. split.
    - intros ->. destruct A as (c & p & H1 & H2 & H3 & H4 & H5 & H6 & H7 & H8). destruct (H8 eq_refl) as [E1 E2].
      rewrite H1, (deref_spec _ _ _ E1). cbn [bind]. eexists. split; [reflexivity|].
      unfold effect. cbn [bstat astat cstat resets rec_st g_msg g_key].
      split; [exists K; exact I|]. repeat split. unfold fails. cbn. destruct ver; lia.
    - intro N. destruct a; [destruct A as [-> _]; reflexivity|easy|].
      destruct A as (c & p & H1 & _ & _ & _ & _ & _ & H7 & _). destruct (H7 eq_refl) as [E _].
      rewrite H1. unfold deref. now rewrite E.
  Qed.

  Lemma step_arith_batch K b a v g ok : inv K b a v g ->
    (a = Open -> exists g', step ver g (ArithBatch ok) = Done (g', None) /\ effect b a v g (ArithBatch ok) g' None) /\
    (a <> Open -> step ver g (ArithBatch ok) = UB).
  Proof.
    intro I. pose proof (i_arith _ _ _ _ _ I) as A. cbn [step]. unfold arith_batch. split.
    - intros ->. destruct A as (c & p & H1 & H2 & H3 & H4 & H5 & H6 & H7 & H8). destruct (H8 eq_refl) as [E1 E2].
      rewrite H2, (deref2_spec _ _ _ _ E2 E1). cbn [bind]. eexists. split; [reflexivity|].
      unfold effect. cbn [bstat astat cstat resets rec_st g_msg g_key]. repeat split; [|apply put_length].
      exists K. rewrite <- H2. now apply inv_msg.
    - intro N. destruct a; [destruct A as [_ ->]; reflexivity|easy|].
      destruct A as (c & p & _ & H1 & _ & _ & _ & _ & H7 & _). destruct (H7 eq_refl) as [_ E].
      now rewrite H1, (deref2_dead _ _ E).
  Qed.

  Lemma step_convert K b a v g : inv K b a v g ->
    (v = Open /\ b = Open -> exists g', step ver g Convert = Done (g', None) /\ effect b a v g Convert g' None) /\
    (~ (v = Open /\ b = Open) -> step ver g Convert = UB).
  Proof.
    intro I. pose proof (i_conv _ _ _ _ _ I) as V. pose proof (i_bool _ _ _ _ _ I) as B. cbn [step]. unfold convert. split.
    - intros [-> ->]. destruct B as (c & p & H1 & H2 & H3 & H4 & H5 & H6 & H7 & H8). destruct (H8 eq_refl) as [E1 E2].
      destruct V as (w & y & V1 & V2 & V3 & V4 & V5 & V6 & V7). destruct (V7 eq_refl) as [D1 D2].
      rewrite V1, (deref2_spec _ _ _ _ D1 D2), H2, H1. cbn [bind].
      rewrite (deref_spec _ _ _ E2). cbn [bind]. rewrite (deref2_spec _ _ _ _ E1 E2). cbn [bind].
      eexists. split; [reflexivity|].
      unfold effect. cbn [bstat astat cstat resets rec_st g_msg g_key].
      split; [exists K; exact I|]. repeat split. unfold fails. cbn. destruct ver; lia.
    - intro N. destruct v; [now rewrite V| |].
      + destruct V as (w & y & V1 & V2 & V3 & V4 & V5 & V6 & V7). destruct (V7 eq_refl) as [D1 D2].
        rewrite V1, (deref2_spec _ _ _ _ D1 D2). cbn [bind].
        destruct b; [destruct B as [_ ->]; reflexivity|now contradiction N|].
        destruct B as (c & p & _ & H1 & _ & _ & _ & _ & H7 & _). destruct (H7 eq_refl) as [_ E].
        rewrite H1. unfold deref. now rewrite E.
      + destruct V as (w & y & V1 & V2 & V3 & V4 & V5 & V6 & V7).
        now rewrite V1, (deref2_dead _ _ (V6 eq_refl)).
  Qed.

  Lemma flag_of g : cheated g = negb (Nat.eqb (length (g_msg g)) 0).
  Proof. unfold cheated. now destruct (g_msg g). Qed.
  Lemma put_final m p q d : length (put ver (put_opt ver (put_opt ver m 1 p) 2 q) 3 d) =
    length m + if ver then fails ((match p with Some x => [x] | _ => [] end) ++
                                            (match q with Some x => [x] | _ => [] end) ++ [d]) else 0.
  Proof.
    unfold put, put_opt, put, fails. destruct ver; [|destruct p, q; cbn; lia].
    destruct p as [[]|], q as [[]|], d; cbn; rewrite ?app_length; cbn; lia.
  Qed.

  Lemma step_final_bool K b a v g p q d : inv K b a v g ->
    (b <> Closed -> exists g' r, step ver g (FinalBool p q d) = Done (g', r) /\ effect b a v g (FinalBool p q d) g' r) /\
    (b = Closed -> step ver g (FinalBool p q d) = UB).
  Proof.
    intros [F B A V]. cbn [step]. unfold final_bool. split.
    - intro N. destruct b; [|clear N|easy].
      + destruct B as [E1 E2]. rewrite E1, E2. cbn [delete bind fst snd]. do 2 eexists. split; [reflexivity|].
        unfold effect. rewrite flag_of. cbn [bstat astat cstat resets rec_st g_msg g_key].
        split; [exists K; now constructor|]. repeat split. unfold fails. cbn. destruct ver; lia.
      + destruct B as (c & o & H1 & H2 & H3 & H4 & H5 & H6 & H7 & H8). destruct (H8 eq_refl) as [E1 E2].
        assert (NE : Nat.eqb o c = false) by (apply (kind_neq K); congruence).
        rewrite H1, H2. unfold delete. rewrite E1. cbn [bind]. rewrite find_drop, NE, E2. cbn [bind fst snd].
        do 2 eexists. split; [reflexivity|].
        unfold effect. rewrite flag_of. cbn [bstat astat cstat resets rec_st g_msg g_key].
        split; [|repeat split; apply put_final].
        exists K. constructor; cbn [h_live h_next g_circ g_prot g_zk g_poly g_conv].
        * intros i r. rewrite !find_drop. destruct (Nat.eqb i o); [discriminate|]. destruct (Nat.eqb i c); [discriminate|]. apply F.
        * exists c, o. rewrite !find_drop, !Nat.eqb_refl. repeat split; auto; try discriminate.
          now destruct (Nat.eqb c o).
        * destruct a; [exact A| |]; destruct A as (z & f & A1 & A2 & A3 & A4 & A5 & A6 & A7 & A8); exists z, f;
          rewrite !find_drop, !(kind_neq K z), !(kind_neq K f) by congruence; repeat split; auto; try (now apply A7); now apply A8.
        * destruct v; [exact V| |]; destruct V as (z & f & A1 & A2 & A3 & A4 & A5 & A6 & A7); exists z, f;
          rewrite !find_drop, !(kind_neq K z), !(kind_neq K f) by congruence; repeat split; auto; now apply A7.
    - intros ->. destruct B as (c & o & H1 & H2 & H3 & H4 & H5 & H6 & H7 & H8). destruct (H7 eq_refl) as [E1 E2].
      rewrite H1. unfold delete. now rewrite E1.
  Qed.

  Lemma step_setup_arith K b a v g cv : inv K b a v g ->
    (cv = false \/ b = Open -> exists g', step ver g (SetupArith cv) = Done (g', None) /\ effect b a v g (SetupArith cv) g' None) /\
    (cv = true /\ b = Never -> step ver g (SetupArith cv) = Exit) /\
    (cv = true /\ b = Closed -> step ver g (SetupArith cv) = UB).
  Proof.
    intros [F B A V]. set (n := h_next g) in *. cbn [step]. unfold setup_arith. fold n.
    set (h := (S n, n) :: (n, n) :: h_live g).
    assert (FO : forall i, i < n -> find h i = find (h_live g) i).
    { intros i L. unfold h. cbn [find]. now rewrite !eqb_lt by lia. }
    split; [|split].
    - intro C.
      destruct cv.
      + destruct C as [C|C]; [discriminate|]. subst b.
        destruct B as (c & o & H1 & H2 & H3 & H4 & H5 & H6 & H7 & H8). destruct (H8 eq_refl) as [E1 E2].
        rewrite H1, H2.
        rewrite (deref_spec h o o) by (now rewrite FO). cbn [bind].
        rewrite (deref2_spec h c o o) by (now rewrite FO). cbn [bind].
        eexists. split; [reflexivity|]. unfold effect. cbn [bstat astat cstat resets rec_st g_msg g_key].
        split; [|repeat split; [unfold fails; cbn; destruct ver; lia|now rewrite H2]].
        exists (ext (ext (ext K n KZk) (S n) KPoly) (S (S n)) KConv).
        assert (KO : forall i, i < n -> ext (ext (ext K n KZk) (S n) KPoly) (S (S n)) KConv i = K i).
        { intros i L. now rewrite !ext_old by lia. }
        assert (FO' : forall i, i < n -> find ((S (S n), n) :: h) i = find (h_live g) i).
        { intros i L. cbn [find]. rewrite eqb_lt by lia. now apply FO. }
        assert (FN : find ((S (S n), n) :: h) n = Some n).
        { unfold h. cbn [find]. rewrite !eqb_lt by lia. now rewrite Nat.eqb_refl. }
        constructor; cbn [h_live h_next g_circ g_prot g_zk g_poly g_conv].
        * intros i r. unfold h. cbn [find].
          destruct (Nat.eqb_spec (S (S n)) i); [lia|]. destruct (Nat.eqb_spec (S n) i); [lia|].
          destruct (Nat.eqb_spec n i); [lia|]. intro X. apply F in X. fold n in X. lia.
        * exists c, o. rewrite !KO, !FO' by lia. repeat split; auto; try lia; discriminate.
        * exists n, (S n). repeat split; auto; try lia; try discriminate.
          { now rewrite 2!ext_old, ext_same by lia. }
          { now rewrite ext_old, ext_same by lia. }
          { unfold h. cbn [find]. rewrite eqb_lt by lia. now rewrite Nat.eqb_refl. }
        * exists (S (S n)), n. rewrite ext_same. repeat split; auto; try lia; try discriminate.
          { now rewrite 2!ext_old, ext_same by lia. }
          { cbn [find]. now rewrite Nat.eqb_refl. }
      + assert (X : match g_circ g with Some _ | None => 
           Done {| g_msg := g_msg g; g_circ := g_circ g; g_prot := g_prot g; g_zk := Some n; g_poly := Some (S n);
                  g_conv := g_conv g; g_key := g_key g; h_live := h; h_next := S (S n) |} end =
           Done {| g_msg := g_msg g; g_circ := g_circ g; g_prot := g_prot g; g_zk := Some n; g_poly := Some (S n);
                  g_conv := g_conv g; g_key := g_key g; h_live := h; h_next := S (S n) |}) by now destruct (g_circ g).
        clear X. cbn [bind].
        eexists. split; [reflexivity|]. unfold effect. cbn [bstat astat cstat resets rec_st g_msg g_key].
        split; [|repeat split; unfold fails; cbn; destruct ver; lia].
        exists (ext (ext K n KZk) (S n) KPoly).
        assert (KO : forall i, i < n -> ext (ext K n KZk) (S n) KPoly i = K i).
        { intros i L. now rewrite !ext_old by lia. }
        constructor; cbn [h_live h_next g_circ g_prot g_zk g_poly g_conv].
        * intros i r. unfold h. cbn [find].
          destruct (Nat.eqb_spec (S n) i); [lia|].
          destruct (Nat.eqb_spec n i); [lia|]. intro X. apply F in X. fold n in X. lia.
        * destruct b; [exact B| |]; destruct B as (c & o & H1 & H2 & H3 & H4 & H5 & H6 & H7 & H8); exists c, o;
          rewrite !KO, !FO by lia; repeat split; auto; try lia; try (now apply H7); now apply H8.
        * exists n, (S n). rewrite ext_same. repeat split; auto; try lia; try discriminate.
          { now rewrite ext_old, ext_same by lia. }
          { unfold h. cbn [find]. rewrite eqb_lt by lia. now rewrite Nat.eqb_refl. }
          { unfold h. cbn [find]. now rewrite Nat.eqb_refl. }
        * destruct v; [exact V| |]; destruct V as (c & o & H1 & H2 & H3 & H4 & H5 & H6 & H7); exists c, o;
          rewrite !KO, !FO by lia; repeat split; auto; try lia; now apply H7.
    - intros [-> ->]. destruct B as [-> _]. reflexivity.
    - intros [-> ->]. destruct B as (c & o & H1 & H2 & H3 & H4 & H5 & H6 & H7 & H8). destruct (H7 eq_refl) as [E1 E2].
      rewrite H1, H2. unfold deref at 1. rewrite FO, E2 by easy. reflexivity.
  Qed.

  Lemma step_final_arith K b a v g co p zo : inv K b a v g -> (v = Open -> a = Open) ->
    (a <> Closed /\ v <> Closed -> exits_st b a v (FinalArith co p zo) -> step ver g (FinalArith co p zo) = Exit) /\
    (a <> Closed /\ v <> Closed -> ~ exits_st b a v (FinalArith co p zo) ->
       exists g', step ver g (FinalArith co p zo) = Done (g', None) /\ effect b a v g (FinalArith co p zo) g' None) /\
    (~ (a <> Closed /\ v <> Closed) -> step ver g (FinalArith co p zo) = UB).
  Proof.
    intros [F B A V] VA. cbn [step]. unfold final_arith.
    assert (S2 : forall w y (h : list (nat * nat)), find h w = Some y -> forall i, find (drop h w) i = if Nat.eqb i w then None else find h i)
      by (intros; apply find_drop).
    (* the part after the conversion object *)
    set (tail := fun h => bind (match g_poly g with
          | None => Done (g_msg g, h)
          | Some i => match find h i with
                      | None => UB
                      | Some r => match p with
                                  | None => Done (g_msg g, drop h i)
                                  | Some ok => match find h r with
                                               | None => UB
                                               | Some _ => Done (put ver (g_msg g) 4 ok, drop h i)
                                               end
                                  end
                      end
          end) (fun mh =>
    bind (match g_zk g with
          | None => Done (snd mh)
          | Some i => match find (snd mh) i with
                      | None => UB
                      | Some _ => if zo then Done (drop (snd mh) i) else Exit
                      end
          end) (fun h =>
    Done {| g_msg := fst mh; g_circ := g_circ g; g_prot := g_prot g; g_zk := g_zk g; g_poly := g_poly g;
            g_conv := g_conv g; g_key := g_key g; h_live := h; h_next := h_next g |}))).
    assert (T : forall h, (forall i, i < h_next g -> K i <> KConv -> find h i = find (h_live g) i) ->
      (a = Never -> tail h = Done {| g_msg := g_msg g; g_circ := g_circ g; g_prot := g_prot g; g_zk := g_zk g; g_poly := g_poly g;
            g_conv := g_conv g; g_key := g_key g; h_live := h; h_next := h_next g |}) /\
      (a = Closed -> tail h = UB) /\
      (a = Open -> zo = false -> tail h = Exit) /\
      (a = Open -> zo = true -> exists z f, K z = KZk /\ K f = KPoly /\ g_zk g = Some z /\ g_poly g = Some f /\
         tail h = Done {| g_msg := put_opt ver (g_msg g) 4 p; g_circ := g_circ g; g_prot := g_prot g; g_zk := g_zk g; g_poly := g_poly g;
            g_conv := g_conv g; g_key := g_key g; h_live := drop (drop h f) z; h_next := h_next g |})).
    { intros h Hh. unfold tail. repeat split.
      - intros ->. destruct A as [-> ->]. reflexivity.
      - intros ->. destruct A as (z & f & A1 & A2 & A3 & A4 & A5 & A6 & A7 & A8). destruct (A7 eq_refl) as [E1 E2].
        rewrite A2. rewrite Hh, E2 by (easy || congruence). reflexivity.
      - intros -> ->. destruct A as (z & f & A1 & A2 & A3 & A4 & A5 & A6 & A7 & A8). destruct (A8 eq_refl) as [E1 E2].
        rewrite A2, A1. rewrite (Hh f), E2 by (easy || congruence). rewrite (Hh z), E1 by (easy || congruence).
        assert (X : find (drop h f) z = Some z).
        { rewrite find_drop, (kind_neq K z f) by congruence. now rewrite (Hh z) by (easy || congruence). }
        destruct p; cbn [bind fst snd]; rewrite X; reflexivity.
      - intros -> ->. destruct A as (z & f & A1 & A2 & A3 & A4 & A5 & A6 & A7 & A8). destruct (A8 eq_refl) as [E1 E2].
        exists z, f. rewrite A2, A1. rewrite (Hh f), E2 by (easy || congruence). rewrite (Hh z), E1 by (easy || congruence).
        assert (X : find (drop h f) z = Some z).
        { rewrite find_drop, (kind_neq K z f) by congruence. now rewrite (Hh z) by (easy || congruence). }
        destruct p; cbn [bind fst snd put_opt]; rewrite X; cbn [bind]; auto. }
    change (let h := h_live g in _) with
      (bind (match g_conv g with
          | None => Done (h_live g)
          | Some i => match find (h_live g) i with
                      | None => UB
                      | Some _ => if co then Done (drop (h_live g) i) else Exit
                      end
          end) tail).
    clearbody tail.
    assert (T0 := T (h_live g) (fun _ _ _ => eq_refl)).
    repeat split.
    - intros [NA NV] X. destruct v; [rewrite V; cbn [bind]| |easy].
      + destruct X as [[X _]|[X1 X2]]; [discriminate|]. destruct T0 as (_ & _ & T3 & _). now rewrite T3.
      + destruct V as (w & y & V1 & V2 & V3 & V4 & V5 & V6 & V7). destruct (V7 eq_refl) as [D1 D2].
        rewrite V1, D1. destruct co; [|reflexivity]. cbn [bind].
        destruct X as [[_ X]|[X1 X2]]; [discriminate|].
        destruct (T (drop (h_live g) w)) as (_ & _ & T3 & _).
        { intros i L KK. now rewrite find_drop, (kind_neq K i w) by congruence. }
        now rewrite T3.
    - intros [NA NV] X. unfold exits_st in X.
      assert (Z : a = Open -> zo = true) by (intro; destruct zo; [easy|exfalso; apply X; auto]).
      destruct v; [rewrite V; cbn [bind]| |easy].
      + destruct a; [| |easy].
        * destruct T0 as (T1 & _). rewrite T1 by easy. cbn [bind]. eexists. split; [reflexivity|].
          unfold effect. cbn [bstat astat cstat resets rec_st g_msg g_key].
          split; [exists K; now constructor|]. repeat split. unfold fails. cbn. destruct ver; lia.
        * destruct T0 as (_ & _ & _ & T4). destruct (T4 eq_refl (Z eq_refl)) as (z & f & Kz & Kf & G1 & G2 & ->).
          cbn [bind]. eexists. split; [reflexivity|].
          unfold effect. cbn [bstat astat cstat resets rec_st g_msg g_key].
          split; [|repeat split; destruct p; cbn [put_opt]; [apply put_length|unfold fails; cbn; destruct ver; lia]].
          exists K. constructor; cbn [h_live h_next g_circ g_prot g_zk g_poly g_conv].
          -- intros i r. rewrite !find_drop. destruct (Nat.eqb i z); [discriminate|]. destruct (Nat.eqb i f); [discriminate|]. apply F.
          -- destruct b; [exact B| |]; destruct B as (c & o & H1 & H2 & H3 & H4 & H5 & H6 & H7 & H8); exists c, o;
             rewrite !find_drop, !(kind_neq K c), !(kind_neq K o) by congruence; repeat split; auto; try (now apply H7); now apply H8.
          -- destruct A as (z' & f' & A1 & A2 & A3 & A4 & A5 & A6 & A7 & A8).
             assert (z' = z) by congruence. assert (f' = f) by congruence. subst z' f'. exists z, f.
             rewrite !find_drop, !Nat.eqb_refl. repeat split; auto; try discriminate. now destruct (Nat.eqb f z).
          -- exact V.
      + assert (a = Open) by auto. subst a.
        destruct V as (w & y & V1 & V2 & V3 & V4 & V5 & V6 & V7). destruct (V7 eq_refl) as [D1 D2].
        assert (co = true) by (destruct co; [easy|exfalso; apply X; auto]). subst co.
        rewrite V1, D1. cbn [bind].
        destruct (T (drop (h_live g) w)) as (_ & _ & _ & T4).
        { intros i L KK. now rewrite find_drop, (kind_neq K i w) by congruence. }
        destruct (T4 eq_refl (Z eq_refl)) as (z & f & Kz & Kf & G1 & G2 & ->).
        cbn [bind]. eexists. split; [reflexivity|].
        unfold effect. cbn [bstat astat cstat resets rec_st g_msg g_key].
        split; [|repeat split; destruct p; cbn [put_opt]; [apply put_length|unfold fails; cbn; destruct ver; lia]].
        exists K. constructor; cbn [h_live h_next g_circ g_prot g_zk g_poly g_conv].
        * intros i r. rewrite !find_drop. destruct (Nat.eqb i z); [discriminate|]. destruct (Nat.eqb i f); [discriminate|].
          destruct (Nat.eqb i w); [discriminate|]. apply F.
        * destruct b; [exact B| |]; destruct B as (c & o & H1 & H2 & H3 & H4 & H5 & H6 & H7 & H8); exists c, o;
             rewrite !find_drop, !(kind_neq K c), !(kind_neq K o) by congruence; repeat split; auto; try (now apply H7); now apply H8.
        * destruct A as (z' & f' & A1 & A2 & A3 & A4 & A5 & A6 & A7 & A8).
             assert (z' = z) by congruence. assert (f' = f) by congruence. subst z' f'. exists z, f.
             rewrite !find_drop, !Nat.eqb_refl. repeat split; auto; try discriminate. now destruct (Nat.eqb f z).
        * exists w, y. rewrite !find_drop, !Nat.eqb_refl. repeat split; auto; try discriminate.
             destruct (Nat.eqb w z), (Nat.eqb w f); reflexivity.
    - intro X. destruct v.
      + rewrite V. cbn [bind]. destruct T0 as (_ & T2 & _). destruct a; try (exfalso; apply X; split; discriminate). now rewrite T2.
      + assert (a = Open) by auto. subst a. exfalso. apply X. split; discriminate.
      + destruct V as (w & y & V1 & V2 & V3 & V4 & V5 & V6 & V7). now rewrite V1, (V6 eq_refl).
  Qed.

  (** one call, all cases *)
  Lemma step_spec K b a v g c : inv K b a v g -> (v = Open -> a = Open) ->
    (safe_st b a v c -> exits_st b a v c -> step ver g c = Exit) /\
    (safe_st b a v c -> ~ exits_st b a v c -> exists g' r, step ver g c = Done (g', r) /\ effect b a v g c g' r) /\
    (~ safe_st b a v c -> step ver g c = UB).
  Proof.
    intros I VA. destruct c as [|ok|p q d|cv| |ok| |co p zo]; cbn [safe_st].
    - repeat split; [intros _ []| |tauto]. intros _ _. destruct (step_setup_bool _ _ _ _ _ I) as (g' & E). eauto.
    - destruct (step_bool_batch _ _ _ _ _ ok I) as [H1 H2]. repeat split; [intros _ []| |auto].
      intros S _. destruct (H1 S) as (g' & E). eauto.
    - destruct (step_final_bool _ _ _ _ _ p q d I) as [H1 H2]. repeat split; [intros _ []| |].
      + intros S _. exact (H1 S).
      + intro S. apply H2. destruct b; [| |easy]; exfalso; apply S; discriminate.
    - destruct (step_setup_arith _ _ _ _ _ cv I) as (H1 & H2 & H3). unfold exits_st. repeat split.
      + intros _ X. destruct cv; [|easy]. now apply H2.
      + intros S X. destruct (H1) as (g' & E); [|eauto]. destruct cv; [right|now left].
        destruct b; [now contradiction X|easy|now contradiction (S eq_refl)].
      + intro S. apply H3. destruct cv; [|exfalso; apply S; discriminate]. split; [easy|].
        destruct b; [| |easy]; exfalso; apply S; discriminate.
    - destruct (step_arith_use _ _ _ _ _ I) as [H1 H2]. repeat split; [intros _ []| |auto].
      intros S _. destruct (H1 S) as (g' & E). eauto.
    - destruct (step_arith_batch _ _ _ _ _ ok I) as [H1 H2]. repeat split; [intros _ []| |auto].
      intros S _. destruct (H1 S) as (g' & E). eauto.
    - destruct (step_convert _ _ _ _ _ I) as [H1 H2]. repeat split; [intros _ []| |auto].
      intros S _. destruct (H1 S) as (g' & E). eauto.
    - destruct (step_final_arith _ _ _ _ _ co p zo I VA) as (H1 & H2 & H3). repeat split; [auto| |auto].
      intros S X. destruct (H2 S X) as (g' & E). eauto.
  Qed.
End Step.
