(** Bytes sent by the prover of both engines, against any verifier program. *)
From Coq Require Import NArith List Bool Arith Lia.
From Verif Require Import Word FpModel ArithModel BoolModel BoolIOModel BoolIOProofs BoolPolyModel BoolPolySpec BSessModel WireModel WireProofs BWireModel BWireSpec AWireModel AWireProofs XWireModel XWireHide CommSpec.
From Verif Require AWireHide.
Import ListNotations.

Section Ep.
  Variables (bs reset : bool) (NB : nat).
  Hypothesis HNB : 1 <= NB.
  Definition okep (e : ep) : Prop := length (e_buf e) = NB /\ e_ptr e < NB.
  Lemma len_upd (l : list bool) : forall i b, i < length l -> length (upd l i b) = length l.
  Proof. induction l as [|x l IH]; intros [|i] b Hi; cbn in *; try lia. now rewrite IH by lia. Qed.
  Lemma len_pack n : forall l, length (pack_blocks bs n l) = n.
  Proof. induction n as [|n IH]; intro l; cbn; [reflexivity|now rewrite IH]. Qed.
  Lemma len_raw l : length l = NB -> length (send_bool_raw bs l) = block_bytes NB.
  Proof.
    intro E. unfold send_bool_raw, block_bytes. rewrite app_length, len_pack, map_length, skipn_length, E.
    pose proof (Nat.div_mod NB 8 ltac:(lia)). lia.
  Qed.
  Lemma bit_cost e b : okep e -> let '(e', o) := send_bit bs NB e b in okep e' /\ length o = bit_bytes NB (e_ptr e) /\ e_ptr e' = bit_next NB (e_ptr e).
  Proof.
    intros [L P]. unfold send_bit, bit_bytes, bit_next, okep. cbv zeta.
    assert (LU : length (upd (e_buf e) (e_ptr e) b) = NB) by (rewrite len_upd; lia).
    destruct (Nat.eqb_spec (S (e_ptr e)) NB) as [X|X]; cbn [e_buf e_ptr]; (split; [split; [exact LU|lia]|]); (split; [|reflexivity]); [now apply len_raw|reflexivity].
  Qed.
  Lemma loop_cost fuel : forall e, okep e -> NB - e_ptr e <= fuel \/ e_ptr e = 0 ->
    let '(e', o) := flush_loop bs NB fuel e in okep e' /\ length o = fl NB (e_ptr e) /\ e_ptr e' = 0.
  Proof.
    induction fuel as [|f IH]; intros e Ok Hf.
    - cbn [flush_loop]. destruct Ok as [L P]. assert (Z : e_ptr e = 0) by lia. unfold fl. rewrite Z. repeat split; auto; lia.
    - cbn [flush_loop]. unfold fl. destruct (Nat.eqb_spec (e_ptr e) 0) as [Z|Z]; [repeat split; auto; apply Ok|].
      pose proof (bit_cost e true Ok) as B. destruct (send_bit bs NB e true) as [e1 o1]. destruct B as (Ok1 & Lo & Pt).
      assert (Hf1 : NB - e_ptr e1 <= f \/ e_ptr e1 = 0).
      { rewrite Pt. unfold bit_next. destruct (Nat.eqb_spec (S (e_ptr e)) NB); lia. }
      specialize (IH e1 Ok1 Hf1). destruct (flush_loop bs NB f e1) as [e2 o2]. destruct IH as (Ok2 & Lo2 & Pt2).
      split; [exact Ok2|]. split; [|exact Pt2]. rewrite app_length, Lo, Lo2, Pt. unfold bit_bytes, bit_next, fl.
      destruct (Nat.eqb_spec (S (e_ptr e)) NB); [cbn; lia|cbn; lia].
  Qed.
  Lemma flush_cost e : okep e -> let '(e', o) := flush_s bs NB e in okep e' /\ length o = fl NB (e_ptr e) /\ e_ptr e' = 0.
  Proof. intro Ok. apply loop_cost; [exact Ok|]. destruct Ok. lia. Qed.

  (** what a program has still to send until it ends with a result *)
  Fixpoint costs {R : Type} (P : proc (option R)) (ptr n : nat) : Prop :=
    match P with
    | PDone None | PGetBit _ => True
    | PDone (Some _) => n = 0
    | PBit _ k => exists m, n = bit_bytes NB ptr + m /\ costs k (bit_next NB ptr) m
    | PAlign _ k | PFlush k => exists m, n = fl NB ptr + m /\ costs k 0 m
    | PPut x k => exists m, n = length x + m /\ costs k ptr m
    | PGet _ k => forall x, costs (k x) ptr n
    | PHash k => forall h, costs (k h) ptr n
    end.
  Lemma cost_step {R} (P : proc (option R)) e rs P' e' o rs' n : okep e -> costs P (e_ptr e) n -> s_proc bs reset NB P e rs = Some (P', e', o, rs') ->
    okep e' /\ exists m, n = length o + m /\ costs P' (e_ptr e') m.
  Proof.
    intros Ok C S0. destruct P as [r|b k|k|d k|x k|len k|k|k]; cbn [s_proc costs] in *; try discriminate S0.
    - cbn [s_act] in S0. pose proof (bit_cost e b Ok) as B. destruct (send_bit bs NB e b) as [e1 o1]. injection S0 as <- <- <- <-.
      destruct B as (Ok1 & Lo & Pt). rewrite Lo, Pt. auto.
    - assert (X : s_act bs reset NB e (AAlign d) rs = (let '(e', o) := if Nat.eqb (e_ptr e) 0 then (e, []) else flush_s bs NB e in Some (e', o, rs))).
      { cbn [s_act]. destruct d; [reflexivity|]. destruct Ok as [L Pt]. replace (e_ptr e =? NB) with false by (symmetry; apply Nat.eqb_neq; lia).
        destruct (Nat.eqb_spec (e_ptr e) 0) as [Z|Z]; [|reflexivity]. unfold flush_s. destruct NB; [reflexivity|]. cbn [flush_loop]. now rewrite Z. }
      rewrite X in S0. destruct (Nat.eqb_spec (e_ptr e) 0) as [Z|Z].
      + injection S0 as <- <- <- <-. split; [exact Ok|]. destruct C as (m & E & C). exists m. unfold fl in E. rewrite Z in E |- *. split; [exact E|exact C].
      + pose proof (flush_cost e Ok) as B. destruct (flush_s bs NB e) as [e1 o1]. injection S0 as <- <- <- <-. destruct B as (Ok1 & Lo & Pt). rewrite Lo, Pt. auto.
    - cbn [s_act] in S0. injection S0 as <- <- <- <-. auto.
    - unfold raw_read in S0. destruct (Nat.ltb _ _); [discriminate|]. injection S0 as <- <- <- <-. split; [exact Ok|]. exists n. split; [reflexivity|apply C].
    - cbn [s_act] in S0. pose proof (flush_cost e Ok) as B. destruct (flush_s bs NB e) as [e1 o1]. injection S0 as <- <- <- <-.
      destruct B as (Ok1 & Lo & Pt). rewrite Lo, Pt. auto.
    - cbn [s_act] in S0. injection S0 as <- <- <- <-. split; [exact Ok|]. exists n. split; [reflexivity|apply C].
  Qed.
  Lemma cost_run {RP RV} br gs gr (P : proc (option RP)) (V : proc RV) n c m : length gs = NB -> costs P 0 n ->
    counted bs br reset NB (n_init NB gs gr P V) c m -> okep (n_s m) /\ exists rest, n = c + rest /\ costs (n_p m) (e_ptr (n_s m)) rest.
  Proof.
    intros Hg C Hc. induction Hc as [|c P0 e V0 r sr rs P' e' o rs' Hc IH St|c P0 e V0 r sr rs V' r' o sr' Hc IH St].
    - split; [split; [exact Hg|exact HNB]|]. exists n. auto.
    - cbn [n_s n_p] in *. destruct IH as (Ok & rest & E & C'). destruct (cost_step _ _ _ _ _ _ _ _ Ok C' St) as (Ok' & m & E' & C2).
      split; [exact Ok'|]. exists m. split; [lia|exact C2].
    - exact IH.
  Qed.
End Ep.

Section Prog.
  Variables (r0 r1 : N) (pM : nat -> N) (threads csz psz : nat) (ope : nat -> list N) (G : list N -> nat -> N) (H : list N -> list N).
  Variables (pub_mac : N) (pV : nat -> N) (acsz apsz : nat) (AG : N -> nat -> N) (AH : list N -> list N) (NB : nat).
  Notation cost := (costs NB).
  Context {R : Type}.
  Lemma fl0 : fl NB 0 = 0. Proof. reflexivity. Qed.
  Lemma c_and_check s (k : pst -> proc (option R)) ptr n : (forall s', length (p_buf s') = length (p_buf s) -> cost (k s') 0 n) ->
    cost (prv_check_prog pM threads G s k) ptr (fl NB ptr + 32 + n).
  Proof.
    intro K. unfold prv_check_prog. cbn [costs]. exists (32 + n). split; [clear; lia|]. intro h.
    destruct (prv_manage pM threads (fun _ => G h) s) as [s'|] eqn:E; [|exact I]. cbn [costs]. exists (32 + n). split; [reflexivity|].
    exists n. split; [now rewrite enc2_len|]. exists n. split; [reflexivity|]. apply K.
    unfold prv_manage in E. destruct (and_ranges threads (length (p_buf s))); [|discriminate]. injection E as <-. reflexivity.
  Qed.
  Lemma c_gate s g (k : pst -> proc (option R)) ptr n : full csz g (length (p_buf s)) = false ->
    (forall s', length (p_buf s') = length (p_buf s) + match g with GAnd _ _ => 1 | _ => 0 end -> cost (k s') (if sends g then bit_next NB ptr else ptr) n) ->
    cost (prv_gate r0 r1 pM threads csz s g k) ptr ((if sends g then bit_bytes NB ptr else 0) + n).
  Proof.
    intros F K. unfold prv_gate. destruct (prv_step _ _ _ _ _ _ s g) as [s'|] eqn:E; [|exact I].
    assert (L : length (p_buf s') = length (p_buf s) + match g with GAnd _ _ => 1 | _ => 0 end).
    { destruct g as [x|b|i j|i|i j|i]; cbn [prv_step full] in *; unfold prv_precheck in *;
        try (destruct (prv_input _ _) as [? ?]); try rewrite F in E; try (destruct (prv_and _ _ _) as [? ?]);
        injection E as <-; cbn; rewrite ?app_length; cbn; clear; lia. }
    specialize (K s' L). destruct (sends g); [|exact K]. cbn [costs]. exists n. auto.
  Qed.
  Lemma c_rel s (k : ppst -> proc (option R)) ptr n : pp_buf s <> [] -> (forall s', pp_buf s' = [] -> cost (k s') 0 n) ->
    cost (prel_check ope s k) ptr (fl NB ptr + 32 + n).
  Proof.
    intros Ne K. unfold prel_check. destruct (pp_buf s) as [|i l] eqn:E; [now elim Ne|]. cbn [costs]. exists (32 + n). split; [clear; lia|]. intro x.
    cbv zeta. exists (32 + n). split; [reflexivity|]. exists n. split; [now rewrite enc2_len|]. apply K. unfold pp_batch_check. now rewrite E.
  Qed.
  Lemma c_items (Hpsz : 1 <= psz) its : forall s (k : ppst -> proc (option R)) ptr n, let (c, q) := rels psz (length its) (length (pp_buf s)) in
    (forall s', length (pp_buf s') = q -> cost (k s') (if Nat.eqb c 0 then ptr else 0) n) ->
    cost (prel_items psz ope its s k) ptr (some c (fl NB ptr + 32 * c) + n).
  Proof.
    induction its as [|i its IH]; intros s k ptr n.
    - cbn [length rels prel_items]. intro K. cbn. apply K. reflexivity.
    - cbn [length rels prel_items]. destruct (Nat.leb_spec psz (length (pp_buf s))) as [F|F].
      + destruct (rels psz (length its) 1) as [c q] eqn:Er. intro K. cbn [Nat.eqb] in K.
        replace (some (S c) (fl NB ptr + 32 * S c) + n) with (fl NB ptr + 32 + (some c (fl NB 0 + 32 * c) + n)).
        2: { unfold some. rewrite fl0. destruct c; cbn [Nat.eqb]; clear; lia. }
        apply c_rel; [intro Z; rewrite Z in F; cbn in F; lia|]. intros s' Es'.
        specialize (IH (pp_push s' i) k 0 n). unfold pp_push at 1 in IH. cbn [pp_buf] in IH. rewrite Es' in IH. cbn [app length] in IH. rewrite Er in IH.
        apply IH. intros s2 L2. specialize (K s2 L2). now destruct (Nat.eqb c 0).
      + specialize (IH (pp_push s i) k ptr n). unfold pp_push at 1 in IH. cbn [pp_buf] in IH. rewrite app_length, Nat.add_1_r in IH.
        destruct (rels psz (length its) (S (length (pp_buf s)))) as [c q]. exact IH.
  Qed.
  Lemma c_mul_check s (k : apst -> proc (option R)) ptr n : (forall s', length (ap_buf s') = length (ap_buf s) -> length (ap_poly s') = length (ap_poly s) -> cost (k s') 0 n) ->
    cost (xp_check threads pV AG s k) ptr (fl NB ptr + 16 + n).
  Proof.
    intro K. unfold xp_check. cbn [costs]. exists (16 + n). split; [clear; lia|]. exists (16 + n). split; [reflexivity|]. intro b. exists (16 + n). split; [reflexivity|].
    destruct (ap_manage pV threads (fun _ => AG (dec_bytes b)) s) as [s'|] eqn:E; [|exact I]. cbn [costs]. exists (16 + n). split; [reflexivity|].
    exists n. split; [now rewrite enc_pair_len|]. exists n. split; [reflexivity|].
    unfold ap_manage in E. destruct (a_ranges threads (length (ap_buf s))); [|discriminate]. injection E as <-. now apply K.
  Qed.
  Lemma c_batch s (k : apst -> proc (option R)) ptr n : ap_poly s <> [] -> (forall s', length (ap_buf s') = length (ap_buf s) -> ap_poly s' = [] -> cost (k s') 0 n) ->
    cost (xp_batch pV s k) ptr (fl NB ptr + 16 + n).
  Proof.
    intros Ne K. unfold xp_batch. cbn [costs]. exists (16 + n). split; [clear; lia|]. exists (16 + n). split; [reflexivity|]. intro b. cbv zeta. exists (16 + n). split; [reflexivity|].
    exists n. split; [now rewrite enc_pair_len|]. unfold ap_batch_seed. destruct (ap_poly s) eqn:E; [now elim Ne|]. now apply K.
  Qed.
  Lemma c_agate s g (k : apst -> proc (option R)) ptr n : a_full acsz g (length (ap_buf s)) = false -> a_pfull apsz g (length (ap_poly s)) = false ->
    (forall s', length (ap_buf s') = AWireHide.g_mul g + length (ap_buf s) -> length (ap_poly s') = AWireHide.g_rel g + length (ap_poly s) -> cost (k s') (if a_sends g then 0 else ptr) n) ->
    cost (xp_gate threads pub_mac pV acsz apsz s g k) ptr ((if a_sends g then fl NB ptr + 8 else 0) + n).
  Proof.
    intros F1 F2 K. unfold xp_gate. destruct (ap_step _ _ _ _ _ _ _ s g) as [s'|] eqn:E; [|exact I].
    destruct (step_sizes _ _ _ _ _ _ _ s g s' F1 F2 E) as (A & B & _). specialize (K s' A B). destruct (a_sends g); [|exact K].
    cbn [costs]. exists (8 + n). split; [clear; lia|]. exists n. split; [now rewrite enc64_len|exact K].
  Qed.
End Prog.
