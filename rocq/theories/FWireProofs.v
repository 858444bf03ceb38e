(** The programs of the GF(2^128) engine follow one schedule, fixed by the circuit and the messages. *)
From Coq Require Import NArith List Bool Arith Lia.
From Verif Require Import Word WordProofs GF128 BoolModel BoolSpec BoolIOModel BoolIOSpec BoolIOThms BoolIOThms2 F2kModel F2kSpec WireModel WireNet WireProofs FWireModel.
Import ListNotations.

(** * Encoding of five blocks *)
Definition blk (x : N) : Prop := (x < 2 ^ 128)%N.
Definition blk2 (A : N * N) : Prop := blk (fst A) /\ blk (snd A).
Definition blk5 (s : row5) : Prop := blk (r0 s) /\ blk (r1 s) /\ blk (r2 s) /\ blk (r3 s) /\ blk (r4 s).
Lemma enc5_len s : length (enc5 s) = 80.
Proof. unfold enc5. now rewrite !app_length, !enc_block_len. Qed.
Lemma dec_at_app a l : length a = 16 -> forall i, dec_at (a ++ l) (S i) = dec_at l i.
Proof.
  intros La i. unfold dec_at. f_equal. f_equal. rewrite skipn_app, La.
  rewrite skipn_all2 by (rewrite La; lia). cbn [app]. f_equal. lia.
Qed.
Lemma dec_at_0 x l : blk x -> dec_at (enc_block x ++ l) 0 = x.
Proof.
  intro H. unfold dec_at. change (16 * 0) with 0. cbn [skipn].
  replace (firstn 16 (enc_block x ++ l)) with (enc_block x); [now apply dec_enc|].
  rewrite <- (enc_block_len x), firstn_app, Nat.sub_diag, firstn_all. cbn [firstn]. now rewrite app_nil_r.
Qed.
Lemma dec5_enc5 s : blk5 s -> dec5 (enc5 s) = s.
Proof.
  destruct s as [[[[a b] c] d] e]. unfold blk5, dec5, enc5. cbn [r0 r1 r2 r3 r4]. intros (H0 & H1 & H2 & H3 & H4).
  rewrite !dec_at_app by apply enc_block_len. rewrite !dec_at_0 by assumption.
  rewrite <- (app_nil_r (enc_block e)), dec_at_0 by assumption. reflexivity.
Qed.

(** * The schedule *)
Inductive item := ICorr (i : nat) | IBit (i : nat) | IChk (k : nat) | IPoly (k : nat).
Record shp := { h_c : nat; h_p : nat; h_corr : nat; h_bits : nat; h_chk : nat; h_pchk : nat }.
Definition h_init : shp := {| h_c := 0; h_p := 0; h_corr := 0; h_bits := 0; h_chk := 0; h_pchk := 0 |}.
Section Items.
  Variables (bufsz polysz : nat).
  Definition mul_items (h : shp) : list item * shp :=
    if Nat.eqb (h_c h) bufsz
    then ([IChk (h_chk h); ICorr (h_corr h)],
          {| h_c := 1; h_p := h_p h; h_corr := S (h_corr h); h_bits := h_bits h; h_chk := S (h_chk h); h_pchk := h_pchk h |})
    else ([ICorr (h_corr h)],
          {| h_c := S (h_c h); h_p := h_p h; h_corr := S (h_corr h); h_bits := h_bits h; h_chk := h_chk h; h_pchk := h_pchk h |}).
  Definition chain_items (h : shp) : list item * shp :=
    if Nat.leb polysz (h_p h) && negb (Nat.eqb (h_p h) 0)
    then (map IBit (seq (h_bits h) 130) ++ [IPoly (h_pchk h)],
          {| h_c := h_c h; h_p := 1; h_corr := h_corr h; h_bits := h_bits h + 130; h_chk := h_chk h; h_pchk := S (h_pchk h) |})
    else (map IBit (seq (h_bits h) 130),
          {| h_c := h_c h; h_p := S (h_p h); h_corr := h_corr h; h_bits := h_bits h + 130; h_chk := h_chk h; h_pchk := h_pchk h |}).
  Definition gitems (h : shp) (g : fgate) : list item * shp :=
    match g with FExt | FAddC _ _ => ([], h) | FMul _ _ => mul_items h | _ => chain_items h end.
  Definition end_items (h : shp) : list item :=
    (if Nat.eqb (h_p h) 0 then [] else [IPoly (h_pchk h)]) ++ (if Nat.eqb (h_c h) 0 then [] else [IChk (h_chk h)]).
  Fixpoint items (h : shp) (c : list fgate) : list item :=
    match c with [] => end_items h | g :: c' => fst (gitems h g) ++ items (snd (gitems h g)) c' end.
  (** challenges are numbered in order *)
  Fixpoint counted (c p : nat) (its : list item) : Prop :=
    match its with
    | [] => True
    | IChk k :: its' => k = c /\ counted (S c) p its'
    | IPoly k :: its' => k = p /\ counted c (S p) its'
    | _ :: its' => counted c p its'
    end.
  Lemma counted_bits a n c p its : counted c p (map IBit (seq a n) ++ its) = counted c p its.
  Proof. revert a. induction n as [|n IH]; intro a; [reflexivity|]. cbn. apply IH. Qed.
  Lemma counted_items c : forall h, counted (h_chk h) (h_pchk h) (items h c).
  Proof.
    induction c as [|g c IH]; intro h; cbn [items].
    - unfold end_items. destruct (Nat.eqb (h_p h) 0), (Nat.eqb (h_c h) 0); cbn; auto.
    - assert (CH : counted (h_chk h) (h_pchk h) (fst (chain_items h) ++ items (snd (chain_items h)) c)).
      { unfold chain_items. destruct (Nat.leb polysz (h_p h) && negb (Nat.eqb (h_p h) 0)); cbn [fst snd].
        - rewrite <- app_assoc, counted_bits. cbn [app counted]. split; [reflexivity|apply (IH {| h_c := _ |})].
        - rewrite counted_bits. apply (IH {| h_c := _ |}). }
      destruct g; cbn [gitems]; try exact CH; try (apply IH).
      unfold mul_items. destruct (Nat.eqb (h_c h) bufsz); cbn [fst snd app counted].
      + split; [reflexivity|]. apply (IH {| h_c := _ |}).
      + apply (IH {| h_c := _ |}).
  Qed.
End Items.
(** the digests that belong to the multiplication checks, and to the product checks *)
Fixpoint chkd (its : list item) (dl : list (list N)) : list (list N) :=
  match its, dl with
  | IChk _ :: its', h :: dl' => h :: chkd its' dl'
  | IPoly _ :: its', _ :: dl' => chkd its' dl'
  | (ICorr _ | IBit _) :: its', _ => chkd its' dl
  | _, _ => []
  end.
Fixpoint polyd (its : list item) (dl : list (list N)) : list (list N) :=
  match its, dl with
  | IChk _ :: its', _ :: dl' => polyd its' dl'
  | IPoly _ :: its', h :: dl' => h :: polyd its' dl'
  | (ICorr _ | IBit _) :: its', _ => polyd its' dl
  | _, _ => []
  end.
Fixpoint nhash (its : list item) : nat :=
  match its with [] => 0 | (IChk _ | IPoly _) :: its' => S (nhash its') | _ :: its' => nhash its' end.
Section Seeded.
  Variables (G : list N -> nat -> N) (Gp : list N -> N) (seeds : nat -> nat -> N) (pseeds : nat -> N).
  Fixpoint seeded (its : list item) (dl : list (list N)) : Prop :=
    match its with
    | [] => dl = []
    | IChk k :: its' => match dl with h :: dl' => seeds k = G h /\ seeded its' dl' | [] => False end
    | IPoly k :: its' => match dl with h :: dl' => pseeds k = Gp h /\ seeded its' dl' | [] => False end
    | _ :: its' => seeded its' dl
    end.
  Lemma seeded_of its : forall c p dl, counted c p its -> length dl = nhash its ->
    (forall i, seeds (c + i) = G (nth i (chkd its dl) [])) -> (forall i, pseeds (p + i) = Gp (nth i (polyd its dl) [])) ->
    seeded its dl.
  Proof.
    induction its as [|[i|i|k|k] its IH]; intros c p dl Hc Hl Hs Hp; cbn [seeded counted nhash] in *.
    - now destruct dl.
    - destruct dl; now apply (IH c p).
    - destruct dl; now apply (IH c p).
    - destruct Hc as [-> Hc]. destruct dl as [|h dl]; [discriminate|]. cbn [chkd polyd] in Hs, Hp. split.
      + rewrite <- (Nat.add_0_r c). exact (Hs 0).
      + apply (IH (S c) p); auto. intro i. replace (S c + i) with (c + S i) by lia. exact (Hs (S i)).
    - destruct Hc as [-> Hc]. destruct dl as [|h dl]; [discriminate|]. cbn [chkd polyd] in Hs, Hp. split.
      + rewrite <- (Nat.add_0_r p). exact (Hp 0).
      + apply (IH c (S p)); auto. intro i. replace (S p + i) with (p + S i) by lia. exact (Hp (S i)).
  Qed.
  Lemma seeded_bits a n its dl : seeded (map IBit (seq a n) ++ its) dl = seeded its dl.
  Proof. revert a. induction n as [|n IH]; intro a; [reflexivity|]. cbn. apply IH. Qed.
End Seeded.
Section Ops.
  Variables (corr : nat -> N) (bitmsg : nat -> bool) (chkmsg : nat -> N * N) (polymsg : nat -> row5).
  Definition iops (it : item) : list op :=
    match it with
    | ICorr i => [OData true (enc_block (corr i))]
    | IBit i => [OBit (bitmsg i)]
    | IChk k => [OChallenge; OData true (enc2 (chkmsg k)); OFlush]
    | IPoly k => [OChallenge; OData true (enc5 (polymsg k))]
    end.
  Definition ops (its : list item) : list op := flat_map iops its.
  Lemma ops_app a b : ops (a ++ b) = ops a ++ ops b.
  Proof. apply flat_map_app. Qed.
  Lemma ops_no_bare its : no_bare_hash (ops its).
  Proof.
    unfold no_bare_hash, ops. induction its as [|it its IH]; [constructor|]. cbn [flat_map]. apply Forall_app. split; [|exact IH].
    destruct it; repeat constructor.
  Qed.
  Lemma ops_nchal its : nchal (ops its) = nhash its.
  Proof. unfold ops. induction its as [|it its IH]; [reflexivity|]. cbn [flat_map]. rewrite nchal_app, IH. now destruct it. Qed.
End Ops.
Lemma ops_shape corr bitmsg chkmsg polymsg corr' bitmsg' chkmsg' polymsg' its :
  Forall2 same_shape (ops corr bitmsg chkmsg polymsg its) (ops corr' bitmsg' chkmsg' polymsg' its).
Proof.
  unfold ops. induction its as [|it its IH]; [constructor|]. cbn [flat_map]. apply Forall2_app; [|exact IH]. destruct it; repeat constructor.
Qed.
Lemma ops_bits corr chkmsg polymsg corr' chkmsg' polymsg' bitmsg its :
  bits_of (ops corr bitmsg chkmsg polymsg its) = bits_of (ops corr' bitmsg chkmsg' polymsg' its).
Proof.
  unfold ops. induction its as [|it its IH]; [reflexivity|]. cbn [flat_map]. rewrite !bits_of_app, IH. now destruct it.
Qed.

(** * The program that sends given messages *)
Fixpoint replay (l : list act) : proc unit :=
  match l with
  | [] => PDone tt
  | ABit b :: l' => PBit b (replay l')
  | AAlign d :: l' => PAlign d (replay l')
  | AXfer _ x :: l' => PPut x (replay l')
  | AFlush :: l' => PFlush (replay l')
  | AHash :: l' => PHash (fun _ => replay l')
  end.
Lemma replay_ops_follow corr bitmsg chkmsg polymsg its : forall dl, length dl = nhash its ->
  follow true (replay (compile (ops corr bitmsg chkmsg polymsg its ++ [OFlush]))) (compile (ops corr bitmsg chkmsg polymsg its ++ [OFlush])) dl tt.
Proof.
  induction its as [|[i|i|k|k] its IH]; intros dl Hl; cbn [nhash] in Hl.
  - cbn. eexists. split; reflexivity.
  - unfold ops. cbn [flat_map iops]. rewrite <- app_assoc. fold (ops corr bitmsg chkmsg polymsg its). rewrite compile_app.
    cbn [compile flat_map compile1 app replay follow Bool.eqb]. eexists. split; [reflexivity|]. eexists. split; [reflexivity|]. now apply IH.
  - unfold ops. cbn [flat_map iops]. rewrite <- app_assoc. fold (ops corr bitmsg chkmsg polymsg its). rewrite compile_app.
    cbn [compile flat_map compile1 app replay follow Bool.eqb]. eexists. split; [reflexivity|]. now apply IH.
  - destruct dl as [|h dl]; [discriminate|]. unfold ops. cbn [flat_map iops]. rewrite <- app_assoc. fold (ops corr bitmsg chkmsg polymsg its). rewrite compile_app.
    cbn [compile flat_map compile1 app replay follow Bool.eqb]. do 5 (eexists; split; [reflexivity|]). apply IH. now injection Hl.
  - destruct dl as [|h dl]; [discriminate|]. unfold ops. cbn [flat_map iops]. rewrite <- app_assoc. fold (ops corr bitmsg chkmsg polymsg its). rewrite compile_app.
    cbn [compile flat_map compile1 app replay follow Bool.eqb]. do 4 (eexists; split; [reflexivity|]). apply IH. now injection Hl.
Qed.
