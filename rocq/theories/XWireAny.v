(** The verifier's program of a session with both engines against an arbitrary prover program. *)
From Coq Require Import NArith List Bool Arith Lia.
From Verif Require Import Word FpModel ArithModel ArithSpec ArithThms3 BoolModel BoolSpec BoolIOModel BoolIOSpec BoolPolyModel BoolPolySpec BSessModel BSessSpec
  WireModel WireProofs WireAny BWireModel BWireSpec BWireAny AWireModel AWireProofs XWireModel XWireThms XWireSpec.
Import ListNotations.

Lemma firstn_snoc {A} n : forall (l : list A) y t, skipn n l = y :: t -> firstn (S n) l = firstn n l ++ [y].
Proof.
  induction n as [|n IH]; intros l y t E; [cbn [skipn] in E; now subst|]. destruct l as [|x l]; [discriminate|]. cbn [skipn] in E.
  cbn [firstn app]. f_equal. exact (IH l y t E).
Qed.
Section Any.
  Variables (r0 r1 : N) (vK : nat -> N) (delta : N) (threads csz psz : nat) (opek : nat -> list N) (rseeds : nat -> N).
  Variables (G : list N -> nat -> N) (H : list N -> list N).
  Variables (pub_mac : N) (vV : nat -> N) (adelta : N) (acsz apsz : nat) (AG : N -> nat -> N) (AH : list N -> list N).
  Variable coins : bool -> nat -> N.
  Hypothesis Hcsz : 1 <= csz.
  Hypothesis Hpsz : 1 <= psz.
  Hypothesis Hacsz : 1 <= acsz.
  Variables (bits : list bool) (L : xrole -> list (list N)) (dg : list (list N)).
  Notation seeds := (fun k : nat => G (nth k dg [])).
  Notation bitmsg := (fun i => nth i bits false).
  Notation chkmsg := (fun k => dec2 (nth k (L RAnd) [])).
  Notation relmsg := (fun k => dec2 (nth k (L RRel) [])).
  Notation aseeds := (fun k : nat => AG (coins false k)).
  Notation words := (fun k => dec_bytes (nth k (L RWord) [])).
  Notation achk := (fun k => dec_pair (nth k (L RMul) [])).
  Notation apchk := (fun k => dec_pair (nth k (L RPoly) [])).
  Notation vstep := (ver_step r0 r1 vK delta threads csz seeds bitmsg chkmsg).
  Notation vmanage := (ver_manage vK delta threads seeds chkmsg).
  Notation vbatch := (pv_batch_check rseeds delta opek relmsg).
  Notation avstep := (av_step pub_mac vV adelta threads acsz apsz aseeds (coins true) words achk apchk).
  Notation avman := (av_manage vV adelta threads aseeds achk).
  Notation avbat := (av_batch vV adelta (coins true) apchk).
  (** [n]: number of data blocks read, [e]: number of digests of the boolean engine read *)
  Record xpos (g : vst) (q : pvst) (a : avst) (n e : nat) (rl : list xrole) (reads : list rd) (dl : list (list N)) : Prop := {
    x_bits : skipn (v_bits g) bits = read_bits reads; x_dg : skipn (v_chk g) dg = dl;
    x_and : xpick RAnd rl (read_data reads) = skipn (v_chk g) (L RAnd); x_rel : xpick RRel rl (read_data reads) = skipn (pv_chk q) (L RRel);
    x_word : xpick RWord rl (read_data reads) = skipn (av_words a) (L RWord); x_mul : xpick RMul rl (read_data reads) = skipn (av_chk a) (L RMul);
    x_poly : xpick RPoly rl (read_data reads) = skipn (av_pchk a) (L RPoly); x_data : xpick RData rl (read_data reads) = skipn n (L RData);
    x_digb : xpick RDigB rl (read_data reads) = skipn e (L RDigB); x_diga : xpick RDigA rl (read_data reads) = L RDigA }.
  Ltac open P := destruct P as [P1 P2 P3 P4 P5 P6 P7 P8 P9 P10]; cbn [read_data read_bits xpick xrole_eqb] in P1, P2, P3, P4, P5, P6, P7, P8, P9, P10.
  Ltac next Q N0 Q0 := symmetry in Q; destruct (skipn_cons _ _ _ _ [] Q) as [N0 Q0]; symmetry in Q0.
  Ltac pack := constructor; cbn [v_bits v_chk pv_chk av_words av_chk av_pchk]; try assumption.
  Lemma xe_check {R : Type} g q a n e rl (k : vst -> proc (option R)) reads dl r : xpos g q a n e (RAnd :: rl) reads dl ->
    eat (ver_check_prog vK delta threads G g k) reads dl = Some (Some r) ->
    exists g1 reads' dl', vmanage g = Some g1 /\ xpos g1 q a n e rl reads' dl' /\ eat (k g1) reads' dl' = Some (Some r).
  Proof.
    intros P E. unfold ver_check_prog in E. cbn [eat] in E. destruct dl as [|h dl]; [discriminate|].
    destruct (and_ranges threads (length (v_buf g))) as [rs|] eqn:Er; [|cbn [eat] in E; destruct reads, dl; discriminate].
    cbn [eat] in E. destruct reads as [|[b|x] reads]; try discriminate. destruct (Nat.eqb (length x) 32); [|discriminate].
    unfold ver_manage in E at 1. rewrite Er in E. cbn [eat] in E. open P. next P3 N3 Q3. destruct (skipn_cons _ _ _ _ [] P2) as [N2 Q2].
    unfold ver_manage. rewrite Er, N2, N3. eexists. exists reads, dl. split; [reflexivity|]. split; [|exact E]. pack.
  Qed.
  Lemma xe_gate {R : Type} g q a n e rl o (k : vst -> proc (option R)) reads dl r : full csz o (length (v_buf g)) = false -> xpos g q a n e rl reads dl ->
    eat (ver_gate r0 r1 vK delta threads csz g o k) reads dl = Some (Some r) ->
    exists g1 reads' dl', vstep g o = Some g1 /\ xpos g1 q a n e rl reads' dl' /\ eat (k g1) reads' dl' = Some (Some r).
  Proof.
    intros Hf P E. unfold ver_gate in E. destruct (sends o) eqn:Eg.
    - cbn [eat] in E. destruct reads as [|[b|x] reads]; try discriminate. open P.
      destruct (skipn_cons _ _ _ _ false P1) as [N1 Q1].
      destruct o; try discriminate; cbn [ver_step full] in *; unfold ver_precheck in *; rewrite ?Hf in *; rewrite N1;
      eexists; exists reads, dl; (split; [reflexivity|]); (split; [|exact E]); pack.
    - open P. destruct o; try discriminate; cbn [ver_step] in *;
      eexists; exists reads, dl; (split; [reflexivity|]); (split; [|exact E]); pack.
  Qed.
  Lemma xe_rel {R : Type} g q a n e rl (k : pvst -> proc (option R)) reads dl r :
    xpos g q a n e (when (negb (Nat.eqb (length (pv_buf q)) 0)) RRel ++ rl) reads dl ->
    eat (vrel_check delta opek rseeds q k) reads dl = Some (Some r) ->
    exists reads', xpos g (vbatch q) a n e rl reads' dl /\ eat (k (vbatch q)) reads' dl = Some (Some r).
  Proof.
    intros P E. unfold vrel_check in E. unfold pv_batch_check in *. destruct (pv_buf q) eqn:Eb; cbn [length Nat.eqb app negb when] in P.
    - now exists reads.
    - cbn [eat] in E. destruct reads as [|[b|x] reads]; try discriminate. destruct (Nat.eqb (length x) 32); [|discriminate]. open P.
      next P4 N4 Q4. exists reads. rewrite N4. split; [|exact E]. pack.
  Qed.
  Lemma xbatch_buf q : pv_buf (vbatch q) = [].
  Proof. unfold pv_batch_check. destruct (pv_buf q) eqn:E; [exact E|reflexivity]. Qed.
  Lemma xe_items {R : Type} g a n e rl (k : pvst -> proc (option R)) dl r its : forall q l q' reads, item_roles psz (length its) (length (pv_buf q)) = (l, q') ->
    xpos g q a n e (map (fun _ => RRel) l ++ rl) reads dl -> eat (vrel_items delta psz opek rseeds its q k) reads dl = Some (Some r) ->
    let f := fold_left (pv_item psz rseeds delta opek relmsg) its q in
    exists reads', xpos g f a n e rl reads' dl /\ eat (k f) reads' dl = Some (Some r) /\ length (pv_buf f) = q'.
  Proof.
    induction its as [|i its IH]; intros q l q' reads Er P E; cbn [length item_roles vrel_items fold_left] in *.
    - injection Er as <- <-. exists reads. auto.
    - assert (X : pv_item psz rseeds delta opek relmsg q i = if Nat.leb psz (length (pv_buf q)) then pv_push (vbatch q) i else pv_push q i).
      { unfold pv_item. destruct (Nat.leb psz (length (pv_buf q))); reflexivity. }
      cbv zeta. rewrite X. destruct (Nat.leb psz (length (pv_buf q))) eqn:Ef.
      + destruct (item_roles psz (length its) 1) as [l1 q1] eqn:E1. injection Er as <- <-.
        assert (P' : xpos g q a n e (when (negb (Nat.eqb (length (pv_buf q)) 0)) RRel ++ map (fun _ => RRel) l1 ++ rl) reads dl).
        { apply Nat.leb_le in Ef. destruct (length (pv_buf q)); [lia|exact P]. }
        destruct (xe_rel g q a n e _ _ reads dl r P' E) as (reads' & P2 & E2).
        apply (IH (pv_push (vbatch q) i) l1 q1 reads'); auto. { cbn [pv_push pv_buf]. rewrite xbatch_buf. exact E1. } open P2. pack.
      + apply (IH (pv_push q i) l q' reads); auto. { cbn [pv_push pv_buf]. rewrite app_length. cbn [length]. now rewrite Nat.add_1_r. } open P. pack.
  Qed.
  (** ** the arithmetic engine *)
  Lemma xe_acheck {R : Type} g q a n e rl (k : avst -> proc (option R)) reads dl r : xpos g q a n e (RMul :: rl) reads dl ->
    eat (xv_check threads vV adelta AG coins a k) reads dl = Some (Some r) ->
    exists a1 reads', avman a = Some a1 /\ av_err a1 = false /\ xpos g q a1 n e rl reads' dl /\ eat (k a1) reads' dl = Some (Some r).
  Proof.
    intros P E. unfold xv_check in E. cbn [eat] in E.
    destruct (a_ranges threads (length (av_buf a))) as [rs|] eqn:Er; [|cbn [eat] in E; destruct reads, dl; discriminate].
    cbn [eat] in E. destruct reads as [|[b|x] reads]; try discriminate. destruct (Nat.eqb (length x) 16); [|discriminate].
    open P. next P6 N6 Q6.
    assert (EM : av_manage vV adelta threads (fun _ => AG (coins false (av_chk a))) (fun _ => dec_pair x) a = avman a).
    { unfold av_manage. now rewrite N6. }
    rewrite EM in E. destruct (avman a) as [a1|] eqn:Ea; [|cbn [eat] in E; destruct reads, dl; discriminate].
    destruct (av_err a1) eqn:Ee; [cbn [eat] in E; destruct reads, dl; discriminate|]. cbn [eat] in E.
    exists a1, reads. split; [reflexivity|]. split; [exact Ee|]. split; [|exact E]. unfold av_manage in Ea. rewrite Er in Ea. injection Ea as <-. pack.
  Qed.
  Lemma xe_abatch {R : Type} g q a n e rl (k : avst -> proc (option R)) reads dl r : av_poly a <> [] -> xpos g q a n e (RPoly :: rl) reads dl ->
    eat (xv_batch vV adelta coins a k) reads dl = Some (Some r) ->
    exists reads', xpos g q (avbat a) n e rl reads' dl /\ eat (k (avbat a)) reads' dl = Some (Some r).
  Proof.
    intros Hne P E. unfold xv_batch in E. cbn [eat] in E. destruct reads as [|[b|x] reads]; try discriminate. destruct (Nat.eqb (length x) 16); [|discriminate].
    open P. next P7 N7 Q7.
    assert (EM : av_batch vV adelta (fun _ => coins true (av_pchk a)) (fun _ => dec_pair x) a = avbat a).
    { unfold av_batch. now rewrite N7. }
    rewrite EM in E. exists reads. split; [|exact E]. unfold av_batch. destruct (av_poly a); [congruence|]. pack.
  Qed.
  Lemma xe_agate {R : Type} g q a n e rl o (k : avst -> proc (option R)) reads dl r :
    a_full acsz o (length (av_buf a)) = false -> a_pfull apsz o (length (av_poly a)) = false -> xpos g q a n e (when (a_sends o) RWord ++ rl) reads dl ->
    eat (xv_gate threads pub_mac vV adelta acsz apsz a o k) reads dl = Some (Some r) ->
    exists a1 reads', avstep a o = Some a1 /\ av_err a1 = false /\ xpos g q a1 n e rl reads' dl /\
      length (av_buf a1) = length (av_buf a) + match o with AMul _ _ => 1 | _ => 0 end /\
      length (av_poly a1) = length (av_poly a) + match o with APoly _ _ _ | AInner _ _ _ => 1 | _ => 0 end /\ eat (k a1) reads' dl = Some (Some r).
  Proof.
    intros F1 F2 P E. unfold xv_gate in E.
    assert (EX : exists a1, avstep a o = Some a1 /\ av_words a1 = (if a_sends o then S (av_words a) else av_words a) /\ av_chk a1 = av_chk a /\ av_pchk a1 = av_pchk a /\
      length (av_buf a1) = length (av_buf a) + match o with AMul _ _ => 1 | _ => 0 end /\
      length (av_poly a1) = length (av_poly a) + match o with APoly _ _ _ | AInner _ _ _ => 1 | _ => 0 end).
    { assert (Q : forall t, (Nat.leb apsz (length (av_poly a)) && negb (length (av_poly a) =? 0))%bool = false ->
        let s := av_queue vV adelta apsz (coins true) apchk a t in av_words s = av_words a /\ av_chk s = av_chk a /\ av_pchk s = av_pchk a /\
          length (av_buf s) = length (av_buf a) + 0 /\ length (av_poly s) = length (av_poly a) + 1).
      { intros t Z. unfold av_queue. assert (B : (if Nat.leb apsz (length (av_poly a)) then avbat a else a) = a).
        { destruct (Nat.leb apsz (length (av_poly a))); [|reflexivity]. destruct (av_poly a) eqn:Ep; [|discriminate]. unfold av_batch. now rewrite Ep. }
        rewrite B. cbn. rewrite app_length. cbn. repeat split; lia. }
      destruct o; cbn [av_step a_full a_pfull a_sends] in *; unfold av_precheck; rewrite ?F1;
      try (eexists; split; [reflexivity|]; cbn; rewrite ?app_length; cbn; repeat split; lia); (eexists; split; [reflexivity|]; now apply Q). }
    destruct EX as (a1 & Ea1 & X1 & X2 & X3 & X4 & X5). destruct (a_sends o) eqn:Eg; cbn [when app] in P.
    - cbn [eat] in E. destruct reads as [|[b|x] reads]; try discriminate. destruct (Nat.eqb (length x) 8); [|discriminate]. open P. next P5 N5 Q5.
      rewrite (av_gate_step pub_mac vV adelta threads acsz apsz a o F1 F2 _ _ _ _ _ aseeds (coins true) words achk apchk) in E by (intros _; now rewrite N5).
      rewrite Ea1 in E. destruct (av_err a1) eqn:Ee; [cbn [eat] in E; destruct reads, dl; discriminate|].
      exists a1, reads. split; [exact Ea1|]. split; [exact Ee|]. split; [|auto]. constructor; rewrite ?X1, ?X2, ?X3; assumption.
    - rewrite (av_gate_step pub_mac vV adelta threads acsz apsz a o F1 F2 _ _ _ _ _ aseeds (coins true) words achk apchk) in E by congruence.
      rewrite Ea1 in E. destruct (av_err a1) eqn:Ee; [cbn [eat] in E; destruct reads, dl; discriminate|]. open P.
      exists a1, reads. split; [exact Ea1|]. split; [exact Ee|]. split; [|auto]. constructor; rewrite ?X1, ?X2, ?X3; assumption.
  Qed.
  Lemma xe_arith {R : Type} g q a n e rl o (k : avst -> proc (option R)) reads dl r l m p :
    a_roles acsz apsz o (length (av_buf a)) (length (av_poly a)) = (l, m, p) -> xpos g q a n e (l ++ rl) reads dl ->
    eat (xv_arith threads pub_mac vV adelta acsz apsz AG coins a o k) reads dl = Some (Some r) ->
    exists a1 reads', avstep a o = Some a1 /\ av_err a1 = false /\ xpos g q a1 n e rl reads' dl /\ length (av_buf a1) = m /\ length (av_poly a1) = p /\
      eat (k a1) reads' dl = Some (Some r).
  Proof.
    intros Er P E. unfold xv_arith in E.
    destruct (a_full acsz o (length (av_buf a))) eqn:F1; [|destruct (a_pfull apsz o (length (av_poly a))) eqn:F2].
    - destruct o as [| | | |i j| | | | | | |]; try discriminate. cbn [a_full a_roles] in *. rewrite F1 in Er. injection Er as <- <- <-. cbn [app] in P.
      destruct (xe_acheck _ _ _ _ _ _ _ _ _ _ P E) as (a1 & reads1 & Em & Ee & P1 & E1).
      rewrite (v_full pub_mac vV adelta threads acsz apsz AG coins words achk apchk Hacsz a (AMul i j) F1), Em.
      assert (F3 : a_full acsz (AMul i j) (length (av_buf (av_clear a1))) = false) by (cbn; destruct acsz; [lia|reflexivity]).
      assert (P2 : xpos g q (av_clear a1) n e (when (a_sends (AMul i j)) RWord ++ rl) reads1 dl) by (open P1; pack).
      destruct (xe_agate _ _ _ _ _ _ _ _ _ _ _ F3 eq_refl P2 E1) as (a2 & reads2 & Es & Ee2 & P3 & B1 & B2 & E2).
      exists a2, reads2. split; [exact Es|]. split; [exact Ee2|]. split; [exact P3|]. split; [exact B1|]. split; [|exact E2].
      rewrite B2, Nat.add_0_r. cbn [av_clear av_poly]. unfold av_manage in Em. destruct (a_ranges _ _); [|discriminate]. now injection Em as <-.
    - assert (Hne : av_poly a <> []).
      { intro Z. rewrite Z in F2. destruct o; try discriminate; cbn in F2; now rewrite andb_false_r in F2. }
      assert (El : l = [RPoly] /\ m = length (av_buf a) /\ p = 1).
      { destruct o; try discriminate; cbn [a_pfull a_roles] in *; rewrite F2 in Er; injection Er as <- <- <-; auto. }
      destruct El as (-> & -> & ->). cbn [app] in P. destruct (xe_abatch _ _ _ _ _ _ _ _ _ _ Hne P E) as (reads1 & P1 & E1).
      rewrite (v_pfull pub_mac vV adelta threads acsz apsz AG coins words achk apchk a o F2).
      assert (Bp : av_poly (avbat a) = [] /\ av_buf (avbat a) = av_buf a) by (unfold av_batch; destruct (av_poly a) eqn:Z; [congruence|split; reflexivity]). destruct Bp as [Bp Bb].
      assert (F3 : a_full acsz o (length (av_buf (avbat a))) = false) by (destruct o; try discriminate; reflexivity).
      assert (F4 : a_pfull apsz o (length (av_poly (avbat a))) = false) by (rewrite Bp; destruct o; try reflexivity; cbn; now rewrite andb_false_r).
      assert (P2 : xpos g q (avbat a) n e (when (a_sends o) RWord ++ rl) reads1 dl) by (destruct o; try discriminate; exact P1).
      destruct (xe_agate _ _ _ _ _ _ _ _ _ _ _ F3 F4 P2 E1) as (a2 & reads2 & Es & Ee2 & P3 & B1 & B2 & E2).
      exists a2, reads2. split; [exact Es|]. split; [exact Ee2|]. split; [exact P3|].
      split; [rewrite B1, Bb; destruct o; try discriminate; apply Nat.add_0_r|]. split; [|exact E2].
      rewrite B2, Bp. destruct o; try discriminate; reflexivity.
    - assert (El : l = when (a_sends o) RWord /\ m = length (av_buf a) + match o with AMul _ _ => 1 | _ => 0 end /\
        p = length (av_poly a) + match o with APoly _ _ _ | AInner _ _ _ => 1 | _ => 0 end).
      { destruct o; cbn [a_full a_pfull a_roles a_sends when] in *; rewrite ?F1, ?F2 in Er; injection Er as <- <- <-; repeat split; lia. }
      destruct El as (-> & -> & ->). destruct (xe_agate _ _ _ _ _ _ _ _ _ _ _ F1 F2 P E) as (a2 & reads2 & Es & Ee2 & P3 & B1 & B2 & E2).
      exists a2, reads2. auto 10.
  Qed.
  (** ** whole programs *)
  Notation bvrun := (bv_run r0 r1 vK delta threads csz psz seeds rseeds opek bitmsg chkmsg relmsg).
  Notation avrun := (av_run pub_mac vV adelta threads acsz apsz aseeds (coins true) words achk apchk).
  Notation vprog := (xver_prog r0 r1 vK delta threads csz psz opek rseeds G H pub_mac vV adelta acsz apsz AG AH coins).
  Definition bend (b : bver) : option bver :=
    match ver_final vK delta threads seeds chkmsg (bv_gates b) with None => None | Some g => Some {| bv_gates := g; bv_poly := vbatch (bv_poly b) |} end.
  Definition xsays (v : xver) (prog : list xop) (vf : xver) (b : bool) : Prop := exists vb va,
    bvrun (xv_b v) (bcalls prog) = Some vb /\ bend vb = Some (xv_b vf) /\
    avrun (xv_a v) (acalls prog) = Some va /\ av_final vV adelta threads aseeds (coins true) achk apchk va = Some (xv_a vf) /\ av_err (xv_a vf) = false /\
    same_bytes (AH (av_hash (xv_a vf))) (nth 0 (L RDigA) []) = true /\
    b = bv_finalize same_bytes H (xv_b vf) (nth 0 (L RDigB) []) || av_cheat va /\ xv_got vf = L RData.
  Lemma xe_fin v vf b reads dl : xv_got v = firstn (length (xv_got v)) (L RData) -> av_err (xv_a v) = false ->
    xpos (bv_gates (xv_b v)) (bv_poly (xv_b v)) (xv_a v) (length (xv_got v)) 0
      (xroles csz psz acsz apsz (length (v_buf (bv_gates (xv_b v)))) (length (pv_buf (bv_poly (xv_b v)))) (length (av_buf (xv_a v))) (length (av_poly (xv_a v))) []) reads dl ->
    eat (vprog v []) reads dl = Some (Some (vf, b)) -> xsays v [] vf b.
  Proof.
    intros Hg He P E. cbn [xver_prog xroles] in *. unfold xv_bool_end in E.
    destruct (xe_rel _ _ _ _ _ _ _ _ _ _ P E) as (reads1 & P1 & E1). clear P E. cbv zeta in E1.
    set (q1 := vbatch (bv_poly (xv_b v))) in *.
    (* the digest of the boolean engine and everything after it *)
    assert (TAIL : forall g reads dl, xpos g q1 (xv_a v) (length (xv_got v)) 0
        ([RDigB] ++ when (negb (length (av_poly (xv_a v)) =? 0)) RPoly ++ when (negb (length (av_buf (xv_a v)) =? 0)) RMul ++ [RDigA]) reads dl ->
      let s' := {| bv_gates := g; bv_poly := q1 |} in
      eat (PAlign true (PGet 32 (fun x => xv_arith_end threads vV adelta AG AH coins (xv_a v)
        (fun a => PFlush (PDone (Some ({| xv_b := s'; xv_a := a; xv_got := xv_got v |}, bv_finalize same_bytes H s' x || av_cheat (xv_a v)))))))) reads dl = Some (Some (vf, b)) ->
      xv_b vf = s' /\ av_final vV adelta threads aseeds (coins true) achk apchk (xv_a v) = Some (xv_a vf) /\ av_err (xv_a vf) = false /\
      same_bytes (AH (av_hash (xv_a vf))) (nth 0 (L RDigA) []) = true /\
      b = bv_finalize same_bytes H s' (nth 0 (L RDigB) []) || av_cheat (xv_a v) /\ xv_got vf = L RData).
    { clear E1 P1 reads1 reads dl. intros g reads dl P s' E. cbn [eat] in E. destruct reads as [|[?|x] reads]; try discriminate.
      destruct (Nat.eqb (length x) 32); [|discriminate].
      assert (Dx : nth 0 (L RDigB) [] = x /\ xpos g q1 (xv_a v) (length (xv_got v)) 1
        (when (negb (length (av_poly (xv_a v)) =? 0)) RPoly ++ when (negb (length (av_buf (xv_a v)) =? 0)) RMul ++ [RDigA]) reads dl).
      { cbn [app] in P. open P. next P9 N9 Q9. split; [exact N9|]. pack. }
      destruct Dx as [Dx Px]. rewrite Dx. set (fin := bv_finalize same_bytes H s' x || av_cheat (xv_a v)) in *.
      assert (DIG : forall a reads dl, av_err a = false -> xpos g q1 a (length (xv_got v)) 1 [RDigA] reads dl ->
        eat (PAlign true (PGet 32 (fun y => if same_bytes (AH (av_hash a)) y then PFlush (PDone (Some ({| xv_b := s'; xv_a := a; xv_got := xv_got v |}, fin))) else PDone None)))
          reads dl = Some (Some (vf, b)) ->
        vf = {| xv_b := s'; xv_a := a; xv_got := xv_got v |} /\ av_err a = false /\ same_bytes (AH (av_hash a)) (nth 0 (L RDigA) []) = true /\ b = fin /\ xv_got v = L RData).
      { intros a rds dls Ha Pd Ed. cbn [eat] in Ed. destruct rds as [|[?|y] rds]; try discriminate. destruct (Nat.eqb (length y) 32); [|discriminate].
        destruct (same_bytes (AH (av_hash a)) y) eqn:Es; cbn [eat] in Ed; destruct rds; try discriminate; destruct dls; try discriminate.
        open Pd. rewrite <- P10. cbn [nth].
        assert (X : vf = {| xv_b := s'; xv_a := a; xv_got := xv_got v |} /\ b = fin) by (split; congruence). destruct X as [-> ->].
        repeat (split; [reflexivity||assumption|]). rewrite Hg. rewrite <- (firstn_skipn (length (xv_got v)) (L RData)) at 2. rewrite <- P8. now rewrite app_nil_r. }
      assert (END : forall a reads dl, av_err a = false -> xpos g q1 a (length (xv_got v)) 1 (when (negb (length (av_buf a) =? 0)) RMul ++ [RDigA]) reads dl ->
        let dig a := PAlign true (PGet 32 (fun y => if same_bytes (AH (av_hash a)) y then PFlush (PDone (Some ({| xv_b := s'; xv_a := a; xv_got := xv_got v |}, fin))) else PDone None)) in
        eat (match av_buf a with [] => dig a | _ => xv_check threads vV adelta AG coins a dig end) reads dl = Some (Some (vf, b)) ->
        exists a', match av_buf a with [] => Some a | _ => avman a end = Some a' /\
        vf = {| xv_b := s'; xv_a := a'; xv_got := xv_got v |} /\ av_err a' = false /\ same_bytes (AH (av_hash a')) (nth 0 (L RDigA) []) = true /\ b = fin /\ xv_got v = L RData).
      { intros a rds dls Ha Pd dig Ed. destruct (av_buf a) eqn:Eb.
        - exists a. split; [reflexivity|]. apply (DIG a rds dls Ha Pd Ed).
        - cbn [length Nat.eqb negb when app] in Pd. destruct (xe_acheck _ _ _ _ _ _ _ _ _ _ Pd Ed) as (a1 & reads2 & Em & Ee & P2 & E2).
          exists a1. split; [exact Em|]. apply (DIG a1 reads2 dls Ee P2 E2). }
      unfold xv_arith_end in E. cbv zeta in E.
      assert (RES : exists a', av_final vV adelta threads aseeds (coins true) achk apchk (xv_a v) = Some a' /\
        vf = {| xv_b := s'; xv_a := a'; xv_got := xv_got v |} /\ av_err a' = false /\ same_bytes (AH (av_hash a')) (nth 0 (L RDigA) []) = true /\ b = fin /\ xv_got v = L RData).
      { unfold av_final. cbv zeta. destruct (av_poly (xv_a v)) eqn:Ep.
        - assert (B0 : avbat (xv_a v) = xv_a v) by (unfold av_batch; now rewrite Ep). rewrite B0. apply (END (xv_a v) reads dl He Px E).
        - cbn [length Nat.eqb negb when app] in Px.
          destruct (xe_abatch _ _ _ _ _ _ _ _ _ _ ltac:(rewrite Ep; discriminate) Px E) as (reads2 & P2 & E2).
          apply (END (avbat (xv_a v)) reads2 dl); [unfold av_batch; now rewrite Ep| |exact E2].
          replace (av_buf (avbat (xv_a v))) with (av_buf (xv_a v)) by (unfold av_batch; now rewrite Ep). exact P2. }
      destruct RES as (a' & Ef & -> & A1 & A2 & A3 & A4). cbn [xv_b xv_a xv_got]. auto 10. }
    unfold xsays. exists (xv_b v), (xv_a v). cbn [bcalls acalls bv_run av_run]. split; [reflexivity|]. unfold bend, ver_final.
    destruct (v_buf (bv_gates (xv_b v))) eqn:Eb.
    - destruct (TAIL _ _ _ P1 E1) as (-> & A). split; [reflexivity|]. split; [reflexivity|]. exact A.
    - cbn [length Nat.eqb negb when app] in P1. destruct (xe_check _ _ _ _ _ _ _ _ _ _ P1 E1) as (g1 & reads2 & dl2 & Em & P2 & E2). rewrite Em.
      destruct (TAIL _ _ _ P2 E2) as (-> & A). split; [reflexivity|]. split; [reflexivity|]. exact A.
  Qed.
  Lemma xe_ver prog : forall v vf b reads dl, xv_got v = firstn (length (xv_got v)) (L RData) -> av_err (xv_a v) = false ->
    xpos (bv_gates (xv_b v)) (bv_poly (xv_b v)) (xv_a v) (length (xv_got v)) 0
      (xroles csz psz acsz apsz (length (v_buf (bv_gates (xv_b v)))) (length (pv_buf (bv_poly (xv_b v)))) (length (av_buf (xv_a v))) (length (av_poly (xv_a v))) prog) reads dl ->
    eat (vprog v prog) reads dl = Some (Some (vf, b)) -> xsays v prog vf b.
  Proof.
    induction prog as [|[[o|c]|o|d x|] prog IH]; intros v vf b reads dl Hg He P E.
    - exact (xe_fin v vf b reads dl Hg He P E).
    - cbn [xver_prog xv_bool xroles] in *.
      assert (K : forall g1 reads' dl', vstep (bv_gates (xv_b v)) o = Some g1 ->
        xpos g1 (bv_poly (xv_b v)) (xv_a v) (length (xv_got v)) 0 (xroles csz psz acsz apsz (length (v_buf g1)) (length (pv_buf (bv_poly (xv_b v)))) (length (av_buf (xv_a v))) (length (av_poly (xv_a v))) prog) reads' dl' ->
        eat (vprog {| xv_b := {| bv_gates := g1; bv_poly := bv_poly (xv_b v) |}; xv_a := xv_a v; xv_got := xv_got v |} prog) reads' dl' = Some (Some (vf, b)) ->
        xsays v (XB (OGate o) :: prog) vf b).
      { intros g1 rd1 dl1 Es P1 E1. destruct (IH {| xv_b := {| bv_gates := g1; bv_poly := bv_poly (xv_b v) |}; xv_a := xv_a v; xv_got := xv_got v |} vf b rd1 dl1 Hg He P1 E1) as (vb & va & A & B). exists vb, va. split; [|exact B].
        cbn [bcalls bv_run bv_step]. now rewrite Es. }
      destruct (full csz o (length (v_buf (bv_gates (xv_b v))))) eqn:Ef.
      + destruct o as [| | | |wa wb|]; try discriminate. cbn [full] in Ef. rewrite Ef in P.
        destruct (xe_check _ _ _ _ _ _ _ _ _ _ P E) as (v1 & reads' & dl' & Em & P' & E').
        assert (X : vstep (bv_gates (xv_b v)) (GAnd wa wb) = vstep (v_clear v1) (GAnd wa wb)).
        { cbn [ver_step]. unfold ver_precheck. rewrite Ef, Em. cbn [v_clear v_buf length]. destruct (Nat.eqb_spec 0 csz); [lia|reflexivity]. }
        assert (P'' : xpos (v_clear v1) (bv_poly (xv_b v)) (xv_a v) (length (xv_got v)) 0
          (xroles csz psz acsz apsz 1 (length (pv_buf (bv_poly (xv_b v)))) (length (av_buf (xv_a v))) (length (av_poly (xv_a v))) prog) reads' dl') by (open P'; pack).
        assert (F0 : full csz (GAnd wa wb) (length (v_buf (v_clear v1))) = false) by (cbn; destruct csz; [lia|reflexivity]).
        destruct (xe_gate _ _ _ _ _ _ _ _ _ _ _ F0 P'' E') as (v2 & r2 & d2 & S2 & P2 & E2).
        apply (K v2 r2 d2); [now rewrite X| |exact E2].
        cbn [ver_step] in S2. unfold ver_precheck in S2. cbn [v_clear v_buf length] in S2. destruct (Nat.eqb 0 csz) eqn:Z; [apply Nat.eqb_eq in Z; lia|].
        injection S2 as <-. cbn [v_buf app length] in *. exact P2.
      + assert (P0 : xpos (bv_gates (xv_b v)) (bv_poly (xv_b v)) (xv_a v) (length (xv_got v)) 0
          (xroles csz psz acsz apsz (length (v_buf (bv_gates (xv_b v))) + match o with GAnd _ _ => 1 | _ => 0 end) (length (pv_buf (bv_poly (xv_b v))))
             (length (av_buf (xv_a v))) (length (av_poly (xv_a v))) prog) reads dl).
        { destruct o; rewrite ?Nat.add_0_r; try exact P. cbn [full] in Ef. rewrite Ef in P. now rewrite Nat.add_1_r. }
        destruct (xe_gate _ _ _ _ _ _ o _ reads dl _ Ef P0 E) as (v2 & r2 & d2 & S2 & P2 & E2).
        apply (K v2 r2 d2 S2); [|exact E2].
        replace (length (v_buf v2)) with (length (v_buf (bv_gates (xv_b v))) + match o with GAnd _ _ => 1 | _ => 0 end); [exact P2|].
        symmetry. clear -S2 Ef. destruct o; cbn [ver_step full] in *; unfold ver_precheck in *; rewrite ?Ef in S2; injection S2 as <-; cbn [v_add v_buf]; rewrite ?app_length; cbn [length]; lia.
    - cbn [xver_prog xv_bool xroles] in *.
      destruct (item_roles psz (nrel c) (length (pv_buf (bv_poly (xv_b v))))) as [l q'] eqn:El.
      destruct (xe_items (bv_gates (xv_b v)) (xv_a v) (length (xv_got v)) 0 _ _ dl _ (ver_items delta (bcall_map (wire (v_wires (bv_gates (xv_b v)))) c))
        (bv_poly (xv_b v)) l q' reads ltac:(rewrite nrel_items; exact El) P E) as (reads' & P2 & E2 & L2).
      rewrite <- L2 in P2. destruct (IH {| xv_b := {| bv_gates := bv_gates (xv_b v); bv_poly := fold_left (pv_item psz rseeds delta opek relmsg) (ver_items delta (bcall_map (wire (v_wires (bv_gates (xv_b v)))) c)) (bv_poly (xv_b v)) |};
        xv_a := xv_a v; xv_got := xv_got v |} vf b reads' dl Hg He P2 E2) as (vb & va & A & B). exists vb, va. split; [|exact B].
      cbn [bcalls bv_run bv_step]. unfold pv_call. exact A.
    - cbn [xver_prog xroles] in *. destruct (a_roles acsz apsz o (length (av_buf (xv_a v))) (length (av_poly (xv_a v)))) as [[l m] p] eqn:El.
      destruct (xe_arith _ _ _ _ _ _ _ _ _ _ _ _ _ _ El P E) as (a1 & reads1 & Es & Ee & P1 & <- & <- & E1).
      destruct (IH {| xv_b := xv_b v; xv_a := a1; xv_got := xv_got v |} vf b reads1 dl Hg Ee P1 E1) as (vb & va & A & B & C & D). exists vb, va. split; [exact A|]. split; [exact B|]. split; [|exact D].
      cbn [acalls av_run]. now rewrite Es.
    - cbn [xver_prog xroles] in *. destruct d.
      + cbn [eat] in E. destruct reads as [|[?|y] reads]; try discriminate. destruct (Nat.eqb (length y) (length x)); [|discriminate].
        open P. next P8 N8 Q8.
        refine (IH {| xv_b := xv_b v; xv_a := xv_a v; xv_got := xv_got v ++ [y] |} vf b reads dl _ He _ E); cbn [xv_got xv_b xv_a].
        * rewrite app_length, Nat.add_1_r, (firstn_snoc _ _ _ _ P8). now rewrite <- Hg.
        * rewrite app_length, Nat.add_1_r. pack.
      + exact (IH v vf b reads dl Hg He P E).
    - exact (IH v vf b reads dl Hg He P E).
  Qed.
End Any.
