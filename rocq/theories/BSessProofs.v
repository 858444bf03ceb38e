(** Sessions with gates and relations: the relations can be resolved at the end. *)
From Coq Require Import NArith List Bool Arith Lia.
From Verif Require Import Word WordProofs GF128 GF128Ring GF128Field PolyRoots ListUtil BoolModel BoolSpec BoolProofs BoolAlg BoolThms BoolThms2
  BoolPolyModel BoolPolySpec BoolPolyProofs BoolPolyThms BSessModel BSessSpec.
Import ListNotations.
Ltac Zify.zify_post_hook ::= idtac.

(** * calls over changing wires *)
Lemma bcall_map_ext {V W} (f g : V -> W) c : (forall w, In w (wires_of c) -> f w = g w) -> bcall_map f c = bcall_map g c.
Proof.
  intros H. destruct c as [x y k|x y k|x y r s|x y r s rr ss|x y r s w]; cbn [bcall_map wires_of] in *;
    repeat match goal with |- context [map f ?l] => rewrite (map_ext_in f g l) by (intros; apply H; rewrite ?in_app_iff; tauto) end.
  1-3: reflexivity.
  - rewrite (H rr), (H ss); [reflexivity| |]; rewrite !in_app_iff; cbn [In]; tauto.
  - rewrite (H s) by (rewrite !in_app_iff; cbn [In]; tauto). f_equal. apply map_ext_in. intros l Hl. apply map_ext_in. intros a Ha.
    apply H. rewrite in_app_iff. left. apply in_concat. exists l. split; assumption.
Qed.
Lemma bcall_map_map {U V W} (f : V -> W) (g : U -> V) c : bcall_map f (bcall_map g c) = bcall_map (fun x => f (g x)) c.
Proof.
  destruct c; cbn [bcall_map]; rewrite ?map_map; try reflexivity. f_equal. apply map_ext. intros l. apply map_map.
Qed.
Lemma defects_len {V} (f : V -> bool) c : length (defects (bcall_map f c)) = match c with BMulti _ _ _ _ w => w | _ => 1 end.
Proof. destruct c; cbn [bcall_map defects length]; try reflexivity. now rewrite map_length, seq_length. Qed.
Lemma wires_of_map {V W} (f : V -> W) c : wires_of (bcall_map f c) = map f (wires_of c).
Proof. destruct c; cbn [bcall_map wires_of]; rewrite ?map_app, ?concat_map; reflexivity. Qed.

(** * the relations resolved at the end *)
Section Factor.
  Context {A T P : Type} (dflt : A) (step : T -> gate -> option T) (ws : T -> list A) (call : P -> bcall A -> P).
  Hypothesis grows : forall s g s', step s g = Some s' -> exists more, ws s' = ws s ++ more /\ length more = makes_wire g.
  Definition at_ (l : list A) (i : nat) : A := nth i l dflt.
  Fixpoint srun (s : T) (c : list gate) : option T :=
    match c with [] => Some s | g :: c' => match step s g with None => None | Some s' => srun s' c' end end.
  Fixpoint xrun (s : T) (q : P) (prog : list bop) : option (T * P) :=
    match prog with
    | [] => Some (s, q)
    | OGate g :: p => match step s g with None => None | Some s' => xrun s' q p end
    | OPoly c :: p => xrun s (call q (bcall_map (at_ (ws s)) c)) p
    end.
  Lemma srun_grows c : forall s s', srun s c = Some s' -> exists more, ws s' = ws s ++ more.
  Proof.
    induction c as [|g c IH]; intros s s' E; cbn [srun] in E.
    - injection E as <-. exists []. now rewrite app_nil_r.
    - destruct (step s g) as [s1|] eqn:E1; [|discriminate]. destruct (grows _ _ _ E1) as (m1 & W1 & _).
      destruct (IH _ _ E) as (m2 & W2). exists (m1 ++ m2). now rewrite W2, W1, app_assoc.
  Qed.
  Lemma at_app (l m : list A) i : i < length l -> at_ (l ++ m) i = at_ l i.
  Proof. intros H. unfold at_. now rewrite app_nth1. Qed.
  Lemma factor prog : forall s q, wf_prog (length (ws s)) prog = true ->
    xrun s q prog = match srun s (gates_of prog) with
                    | None => None
                    | Some s' => Some (s', fold_left (fun q c => call q (bcall_map (at_ (ws s')) c)) (calls_of prog) q)
                    end.
  Proof.
    induction prog as [|[g|c] p IH]; intros s q H; cbn [xrun gates_of calls_of srun wf_prog] in *; [reflexivity| |].
    - apply andb_true_iff in H. destruct H as [_ H]. destruct (step s g) as [s1|] eqn:E1; [|reflexivity].
      destruct (grows _ _ _ E1) as (m & W & L). apply IH. now rewrite W, app_length, L.
    - apply andb_true_iff in H. destruct H as [H1 H]. rewrite (IH _ _ H).
      destruct (srun s (gates_of p)) as [s'|] eqn:E; [|reflexivity]. cbn [fold_left].
      destruct (srun_grows _ _ _ E) as (m & W).
      replace (bcall_map (at_ (ws s')) c) with (bcall_map (at_ (ws s)) c); [reflexivity|].
      apply bcall_map_ext. intros i Hi. rewrite forallb_forall in H1. specialize (H1 _ Hi). apply Nat.ltb_lt in H1.
      now rewrite W, at_app.
  Qed.
End Factor.
Lemma fold_map_call {A B P} (f : P -> B -> P) (g : A -> B) l : forall q, fold_left (fun q c => f q (g c)) l q = fold_left f (map g l) q.
Proof. induction l as [|a l IH]; intros q; cbn [fold_left map]; [reflexivity|apply IH]. Qed.

(** ** prover *)
Section P.
  Variables (r0 r1 : N) (pM : nat -> N) (threads csz psz : nat) (seeds : nat -> nat -> N) (rseeds : nat -> N) (ope : nat -> list N).
  Notation step := (prv_step r0 r1 pM threads csz seeds).
  Lemma p_grows s g s' : step s g = Some s' -> exists more, p_wires s' = p_wires s ++ more /\ length more = makes_wire g.
  Proof.
    destruct g; cbn [prv_step makes_wire].
    - destruct (prv_input _ _) as [w b]. intros E. injection E as <-. now exists [w].
    - intros E. injection E as <-. now eexists [_].
    - intros E. injection E as <-. now eexists [_].
    - intros E. injection E as <-. now eexists [_].
    - unfold prv_precheck, prv_manage. destruct (Nat.eqb _ csz).
      + destruct (and_ranges _ _); [|discriminate]. cbn [p_clear p_wires]. destruct (prv_and _ _ _) as [w b].
        intros E. injection E as <-. now exists [w].
      + destruct (prv_and _ _ _) as [w b]. intros E. injection E as <-. now exists [w].
    - intros E. injection E as <-. exists []. cbn [p_wires length]. now rewrite app_nil_r.
  Qed.
  Lemma srun_prv c : forall s, srun step s c = prv_run r0 r1 pM threads csz seeds s c.
  Proof. induction c as [|g c IH]; intros s; cbn [srun prv_run]; [reflexivity|]. destruct (step s g); auto. Qed.
  Lemma xrun_prv prog : forall s, bp_run r0 r1 pM threads csz psz seeds rseeds ope s prog =
    match xrun 0%N step p_wires (pp_call psz rseeds ope) (bp_gates s) (bp_poly s) prog with
    | None => None | Some (p, q) => Some {| bp_gates := p; bp_poly := q |} end.
  Proof.
    induction prog as [|[g|c] p IH]; intros s; cbn [bp_run bp_step xrun]; [now destruct s| |exact (IH {| bp_gates := bp_gates s; bp_poly := _ |})].
    destruct (step (bp_gates s) g) as [s1|]; [exact (IH {| bp_gates := s1; bp_poly := bp_poly s |})|reflexivity].
  Qed.
  Lemma prv_final_wires p p' : prv_final pM threads seeds p = Some p' -> p_wires p' = p_wires p.
  Proof.
    unfold prv_final, prv_manage. destruct (p_buf p) as [|x l] eqn:E; [now intros [= <-]|]. destruct (and_ranges _ _); [|discriminate].
    now intros [= <-].
  Qed.
  Lemma bp_exec_factor prog : wf_prog 0 prog = true ->
    bp_exec r0 r1 pM threads csz psz seeds rseeds ope prog =
    match prv_exec r0 r1 pM threads csz seeds (gates_of prog) with
    | None => None
    | Some p => Some {| bp_gates := p; bp_poly := pp_exec psz rseeds ope (map (bcall_map (wire (p_wires p))) (calls_of prog)) |}
    end.
  Proof.
    intros W. unfold bp_exec, prv_exec. rewrite xrun_prv.
    rewrite (factor 0%N step p_wires (pp_call psz rseeds ope) p_grows) by exact W. cbn [bp_init bp_gates bp_poly].
    rewrite srun_prv. destruct (prv_run r0 r1 pM threads csz seeds p_init (gates_of prog)) as [p|] eqn:E; [|reflexivity].
    cbn [bp_gates bp_poly]. destruct (prv_final pM threads seeds p) as [p'|] eqn:F; [|reflexivity].
    rewrite (prv_final_wires _ _ F). unfold pp_exec. now rewrite fold_map_call.
  Qed.
End P.

(** ** verifier *)
Section V.
  Variables (r0 r1 : N) (vK : nat -> N) (d : N) (threads csz psz : nat) (seeds : nat -> nat -> N) (rseeds : nat -> N)
            (opek : nat -> list N) (bitmsg : nat -> bool) (chkmsg relmsg : nat -> N * N).
  Notation step := (ver_step r0 r1 vK d threads csz seeds bitmsg chkmsg).
  Lemma v_grows s g s' : step s g = Some s' -> exists more, v_wires s' = v_wires s ++ more /\ length more = makes_wire g.
  Proof.
    destruct g; cbn [ver_step makes_wire].
    1-4: intros E; injection E as <-; now eexists [_].
    - unfold ver_precheck, ver_manage. destruct (Nat.eqb _ csz).
      + destruct (and_ranges _ _); [|discriminate]. intros E. injection E as <-. now eexists [_].
      + intros E. injection E as <-. now eexists [_].
    - intros E. injection E as <-. exists []. cbn [v_wires length]. now rewrite app_nil_r.
  Qed.
  Lemma srun_ver c : forall s, srun step s c = ver_run r0 r1 vK d threads csz seeds bitmsg chkmsg s c.
  Proof. induction c as [|g c IH]; intros s; cbn [srun ver_run]; [reflexivity|]. destruct (step s g); auto. Qed.
  Lemma xrun_ver prog : forall s, bv_run r0 r1 vK d threads csz psz seeds rseeds opek bitmsg chkmsg relmsg s prog =
    match xrun 0%N step v_wires (pv_call psz rseeds d opek relmsg) (bv_gates s) (bv_poly s) prog with
    | None => None | Some (p, q) => Some {| bv_gates := p; bv_poly := q |} end.
  Proof.
    induction prog as [|[g|c] p IH]; intros s; cbn [bv_run bv_step xrun]; [now destruct s| |exact (IH {| bv_gates := bv_gates s; bv_poly := _ |})].
    destruct (step (bv_gates s) g) as [s1|]; [exact (IH {| bv_gates := s1; bv_poly := bv_poly s |})|reflexivity].
  Qed.
  Lemma ver_final_wires p p' : ver_final vK d threads seeds chkmsg p = Some p' -> v_wires p' = v_wires p.
  Proof.
    unfold ver_final, ver_manage. destruct (v_buf p) as [|x l] eqn:E; [now intros [= <-]|]. destruct (and_ranges _ _); [|discriminate].
    now intros [= <-].
  Qed.
  Lemma bv_exec_factor prog : wf_prog 0 prog = true ->
    bv_exec r0 r1 vK d threads csz psz seeds rseeds opek bitmsg chkmsg relmsg prog =
    match ver_exec r0 r1 vK d threads csz seeds bitmsg chkmsg (gates_of prog) with
    | None => None
    | Some v => Some {| bv_gates := v; bv_poly := pv_exec psz rseeds d opek relmsg (map (bcall_map (wire (v_wires v))) (calls_of prog)) |}
    end.
  Proof.
    intros W. unfold bv_exec, ver_exec. rewrite xrun_ver.
    rewrite (factor 0%N step v_wires (pv_call psz rseeds d opek relmsg) v_grows) by exact W. cbn [bv_init bv_gates bv_poly].
    rewrite srun_ver. destruct (ver_run r0 r1 vK d threads csz seeds bitmsg chkmsg v_init (gates_of prog)) as [p|] eqn:E; [|reflexivity].
    cbn [bv_gates bv_poly]. destruct (ver_final vK d threads seeds chkmsg p) as [p'|] eqn:F; [|reflexivity].
    rewrite (ver_final_wires _ _ F). unfold pv_exec. now rewrite fold_map_call.
  Qed.
End V.

(** ** plain bits *)
Lemma plain_cons g : forall ws outs c, plain_eval ws outs (g :: c) = let '(w, o) := plain_eval ws outs [g] in plain_eval w o c.
Proof. destruct g; reflexivity. Qed.
Lemma plain_one_grows g ws outs : exists more, fst (plain_eval ws outs [g]) = ws ++ more /\ length more = makes_wire g.
Proof. destruct g; cbn [plain_eval fst makes_wire]; try (now eexists [_]). exists []. now rewrite app_nil_r. Qed.
Lemma plain_grows c : forall ws outs, exists more, fst (plain_eval ws outs c) = ws ++ more.
Proof.
  induction c as [|g c IH]; intros ws outs; [exists []; cbn; now rewrite app_nil_r|]. rewrite plain_cons.
  destruct (plain_one_grows g ws outs) as (m & W & _). destruct (plain_eval ws outs [g]) as [w o]. cbn [fst] in W.
  destruct (IH w o) as (m' & W'). rewrite W', W. exists (m ++ m'). now rewrite app_assoc.
Qed.
Lemma bplain_factor prog : forall ws outs rels, wf_prog (length ws) prog = true ->
  let pe := plain_eval ws outs (gates_of prog) in
  bplain ws outs rels prog = (fst pe, snd pe, rels ++ committed_rels (fst pe) prog).
Proof.
  induction prog as [|[g|c] p IH]; intros ws outs rels H; cbn [bplain gates_of wf_prog] in *; cbv zeta.
  - unfold committed_rels. cbn. now rewrite app_nil_r.
  - apply andb_true_iff in H. destruct H as [_ H]. rewrite (plain_cons g ws outs (gates_of p)). destruct (plain_one_grows g ws outs) as (m & W & L).
    destruct (plain_eval ws outs [g]) as [w o]. cbn [fst] in W. apply (IH w o rels). now rewrite W, app_length, L.
  - apply andb_true_iff in H. destruct H as [H1 H]. rewrite (IH ws outs _ H). cbv zeta. f_equal. rewrite <- app_assoc. f_equal.
    unfold committed_rels. cbn [calls_of flat_map]. f_equal. f_equal. apply bcall_map_ext. intros i Hi.
    rewrite forallb_forall in H1. specialize (H1 _ Hi). apply Nat.ltb_lt in H1.
    destruct (plain_grows (gates_of p) ws outs) as (m & W). rewrite W. unfold pwire. now rewrite app_nth1.
Qed.
Lemma gates_with ins prog : gates_of (bwith_inputs ins prog) = with_inputs ins (gates_of prog).
Proof.
  revert ins. induction prog as [|[[x|b|i j|i|i j|i]|c] p IH]; intros ins; cbn [bwith_inputs gates_of with_inputs]; try (now rewrite ?IH).
  destruct ins; cbn [gates_of]; now rewrite IH.
Qed.
Lemma calls_with ins prog : calls_of (bwith_inputs ins prog) = calls_of prog.
Proof.
  revert ins. induction prog as [|[[x|b|i j|i|i j|i]|c] p IH]; intros ins; cbn [bwith_inputs calls_of]; try (now rewrite ?IH).
  destruct ins; cbn [calls_of]; now rewrite IH.
Qed.
Lemma wf_with ins prog : forall n, wf_prog n (bwith_inputs ins prog) = wf_prog n prog.
Proof.
  revert ins. induction prog as [|[[x|b|i j|i|i j|i]|c] p IH]; intros ins n; cbn [bwith_inputs wf_prog]; try (now rewrite ?IH).
  destruct ins; cbn [wf_prog]; now rewrite IH.
Qed.
Lemma bouts_gates prog : wf_prog 0 prog = true -> bouts prog = plain_outputs (gates_of prog).
Proof. intros W. unfold bouts, plain_outputs. now rewrite (bplain_factor prog [] [] [] W). Qed.
Lemma brels_gates prog : wf_prog 0 prog = true -> brels prog = committed_rels (fst (plain_eval [] [] (gates_of prog))) prog.
Proof. intros W. unfold brels. now rewrite (bplain_factor prog [] [] [] W). Qed.
Lemma all_hold_false l : all_hold l = true <-> Forall (fun e => e = false) l.
Proof.
  unfold all_hold. rewrite forallb_forall, Forall_forall. split; intros H x Hx; specialize (H x Hx); [now apply negb_true_iff|now rewrite H].
Qed.
Lemma all_hold_true l : all_hold l = false -> In true l.
Proof. unfold all_hold. induction l as [|[] l IH]; cbn; intros H; [discriminate|now left|right; auto]. Qed.
