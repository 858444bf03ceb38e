(** Life cycle of the cell arrays. *)
From Coq Require Import NArith List Bool Arith Lia.
From Verif Require Import ListUtil RamModel RamSpec RamThms.
Import ListNotations.
Ltac Zify.zify_post_hook ::= idtac.

Lemma upd_length {A} (m : list A) : forall i v, length (upd m i v) = length m.
Proof. induction m as [|x m IH]; intros [|i] v; cbn; try reflexivity. now rewrite IH. Qed.
Lemma cell_upd_eq {A} (m : list A) : forall i v, i < length m -> cell (upd m i v) i = Some v.
Proof. induction m as [|x m IH]; intros [|i] v H; cbn in *; try lia; [reflexivity|]. apply IH. lia. Qed.
Lemma cell_upd_neq {A} (m : list A) : forall i j v, i <> j -> cell (upd m i v) j = cell m j.
Proof. induction m as [|x m IH]; intros [|i] [|j] v H; cbn; try reflexivity; try lia. apply IH. lia. Qed.
Lemma cell_lt {A} (m : list A) i : i < length m -> exists v, cell m i = Some v.
Proof. intro H. unfold cell. destruct (nth_error m i) eqn:E; [eauto|]. apply nth_error_None in E. lia. Qed.
Lemma cell_some_lt {A} (m : list A) i v : cell m i = Some v -> i < length m.
Proof. intro H. apply nth_error_Some. unfold cell in H. congruence. Qed.

(** * Read-write memory *)
(** what an access does in a plain array *)
Definition acc_of (mem : list N) (o : rwop) : acc :=
  match o with
  | RRead i => {| a_addr := N.of_nat i; a_write := false; a_val := nth i mem 0%N |}
  | RWrite i v => {| a_addr := N.of_nat i; a_write := true; a_val := v |}
  | RAccess op i v => {| a_addr := N.of_nat i; a_write := op; a_val := if op then v else nth i mem 0%N |}
  | _ => {| a_addr := 0; a_write := false; a_val := 0 |}%N
  end.
Lemma last_write_app l1 l2 a : last_write (l1 ++ l2) a = match last_write l2 a with Some v => Some v | None => last_write l1 a end.
Proof.
  induction l1 as [|x l1 IH]; cbn [app last_write]; [now destruct (last_write l2 a)|]. rewrite IH. now destruct (last_write l2 a).
Qed.
Lemma app_one_inv {A} (pre : list A) x post l y : l ++ [y] = pre ++ x :: post -> (post = [] /\ pre = l /\ x = y) \/ exists post', post = post' ++ [y] /\ l = pre ++ x :: post'.
Proof.
  intro E. destruct post as [|z post] using rev_ind.
  - left. apply app_inj_tail in E. destruct E. now subst.
  - right. exists post. change (pre ++ x :: post ++ [z]) with (pre ++ (x :: post) ++ [z]) in E. rewrite app_assoc in E. apply app_inj_tail in E. destruct E. now subst.
Qed.
(** the recorded log is the log of a plain memory *)
Definition rw_inv (n : nat) (s : rwst) (log : list acc) : Prop :=
  length (rw_mem s) = 2 ^ n /\ rw_list s = numbered 0 log /\ rw_step s = length log /\ rw_checked s = [] /\ reads_latest log /\
  (forall i, i < 2 ^ n -> cell (rw_mem s) i = Some (match last_write log (N.of_nat i) with Some v => v | None => 0%N end)) /\
  Forall (fun x => (a_addr x < N.of_nat (2 ^ n))%N) log.
Lemma rw_inv_init n : rw_inv n (rw_init n) [].
Proof.
  unfold rw_inv. cbn [rw_init rw_mem rw_list rw_step rw_checked]. rewrite repeat_length. split; [reflexivity|]. split; [reflexivity|]. split; [reflexivity|].
  split; [reflexivity|]. split; [intros [|? ?] ? ? E; discriminate|]. split; [|constructor].
  intros i Hi. unfold cell. rewrite nth_error_repeat by exact Hi. reflexivity.
Qed.
Lemma rw_inv_push n s log mem i (op : bool) v : rw_inv n s log -> i < 2 ^ n -> length mem = 2 ^ n ->
  (op = false -> mem = rw_mem s /\ cell (rw_mem s) i = Some v) -> (op = true -> mem = upd (rw_mem s) i v) ->
  rw_inv n (rw_push s mem i op v) (log ++ [{| a_addr := N.of_nat i; a_write := op; a_val := v |}]).
Proof.
  intros (H1 & H2 & H3 & H4 & H5 & H6 & H7) Hi Hm Hr Hw. unfold rw_inv. cbn [rw_push rw_mem rw_list rw_step rw_checked].
  split; [exact Hm|]. split.
  { rewrite H2, H3, numbered_app. reflexivity. }
  split; [rewrite app_length, H3; cbn; lia|]. split; [exact H4|]. split.
  { intros pre x post E O w Hl. apply app_one_inv in E. destruct E as [[-> [-> ->]]|[post' [-> ->]]].
    - cbn [a_write a_addr a_val] in *. destruct (Hr O) as [_ C]. rewrite H6, Hl in C by exact Hi. congruence.
    - exact (H5 _ _ _ eq_refl O w Hl). }
  split.
  { intros j Hj. rewrite last_write_app. cbn [last_write a_write a_addr a_val]. destruct op.
    - rewrite (Hw eq_refl). cbn [andb]. destruct (N.eqb_spec (N.of_nat i) (N.of_nat j)) as [e|ne].
      + apply Nat2N.inj in e. subst j. apply cell_upd_eq. lia.
      + rewrite cell_upd_neq by congruence. now apply H6.
    - destruct (Hr eq_refl) as [-> _]. cbn [andb]. now apply H6. }
  apply Forall_app. split; [exact H7|]. constructor; [cbn [a_addr]; lia|constructor].
Qed.
Lemma rw_access_inv n st s log o : rw_inv n s log -> rw_is_access o -> rw_address o < 2 ^ n ->
  exists s', rw_do n st s o = Some s' /\ rw_inv n s' (log ++ [acc_of (rw_mem s) o]).
Proof.
  intros I A L. assert (H := I). destruct H as (H1 & _ & _ & _ & _ & H6 & _).
  destruct o as [i|i v|op i v| |]; try contradiction; cbn [rw_address] in L; cbn [rw_do acc_of].
  - unfold rw_read. specialize (H6 i L). rewrite H6. eexists. split; [reflexivity|]. rewrite (nth_error_nth _ _ 0%N H6). apply rw_inv_push; auto; discriminate.
  - unfold rw_write. rewrite (H6 i L). eexists. split; [reflexivity|]. apply rw_inv_push; auto; [now rewrite upd_length|discriminate].
  - unfold rw_access. specialize (H6 i L). rewrite H6. destruct op; eexists; (split; [reflexivity|]).
    + apply rw_inv_push; auto; [now rewrite upd_length|discriminate].
    + rewrite (nth_error_nth _ _ 0%N H6). apply rw_inv_push; auto; discriminate.
Qed.
Lemma rw_run_inv n st os : forall s log, rw_inv n s log -> Forall (fun o => rw_is_access o /\ rw_address o < 2 ^ n) os ->
  exists s' log', rw_run n st s os = Some s' /\ rw_inv n s' (log ++ log') /\ length log' = length os.
Proof.
  induction os as [|o os IH]; intros s log I F.
  - exists s, []. rewrite app_nil_r. cbn. auto.
  - inversion F as [|? ? [A L] F']; subst. destruct (rw_access_inv n st s log o I A L) as [s1 [E1 I1]].
    destruct (IH s1 _ I1 F') as (s' & log' & E & I' & Ln). exists s', (acc_of (rw_mem s) o :: log'). cbn [rw_run]. rewrite E1. split; [exact E|].
    rewrite <- app_assoc in I'. split; [exact I'|]. cbn. now rewrite Ln.
Qed.
(** after a check every access is out of bounds *)
Lemma rw_no_cells n st s o : rw_mem s = [] -> rw_is_access o -> rw_do n st s o = None.
Proof.
  intros E A. destruct o as [i|i v|op i v| |]; try contradiction; cbn [rw_do]; unfold rw_read, rw_write, rw_access, cell; rewrite E; now destruct i.
Qed.
Lemma rw_refresh_fires n st s : rw_step s + 2 ^ n = 2 ^ (st - 1) -> rw_refresh n st s = None.
Proof.
  intro H. unfold rw_refresh. rewrite H, Nat.eqb_refl. destruct (rw_read_all s (seq 0 (2 ^ n))) as [[s' vs]|] eqn:E; [|reflexivity].
  assert (G : forall is s s' vs, rw_read_all s is = Some (s', vs) -> length vs = length is).
  { clear. induction is as [|i is IH]; intros s s' vs H; cbn in H; [now injection H as _ <-|]. destruct (rw_read s i) as [[s1 v]|]; [|discriminate].
    destruct (rw_read_all s1 is) as [[s2 vs']|] eqn:E; [|discriminate]. injection H as _ <-. cbn. f_equal. eauto. }
  apply G in E. rewrite seq_length in E. assert (P : 2 ^ n <> 0) by (apply Nat.pow_nonzero; lia).
  destruct (2 ^ n) as [|c]; [lia|]. destruct vs as [|v vs]; [discriminate|]. reflexivity.
Qed.
Lemma rw_mem_empty_stays n st os : forall s s', rw_mem s = [] -> rw_run n st s os = Some s' -> Forall (fun o => ~ rw_is_access o) os /\ rw_mem s' = [].
Proof.
  induction os as [|o os IH]; intros s s' E H; cbn [rw_run] in H; [injection H as <-; auto|].
  destruct (rw_do n st s o) as [s1|] eqn:D; [|discriminate].
  assert (A : ~ rw_is_access o) by (intro A; rewrite (rw_no_cells n st s o E A) in D; discriminate).
  assert (E1 : rw_mem s1 = []).
  { destruct o; try (exfalso; now apply A); cbn [rw_do] in D; [injection D as <-; reflexivity|]. unfold rw_refresh in D.
    destruct (Nat.eqb_spec (rw_step s + 2 ^ n) (2 ^ (st - 1))) as [e|ne]; [|injection D as <-; exact E].
    pose proof (rw_refresh_fires n st s e) as R. unfold rw_refresh in R. rewrite e, Nat.eqb_refl in R. congruence. }
  destruct (IH s1 s' E1 H) as [F M]. split; [now constructor|exact M].
Qed.

(** * Read-only memory *)
Lemma firstn_all_app {A} (l1 l2 : list A) n : length l1 = n -> firstn n (l1 ++ l2) = l1.
Proof. intros <-. rewrite firstn_app, Nat.sub_diag, firstn_all. cbn. apply app_nil_r. Qed.
Definition ro_base (data : list N) : list (N * N) := combine (map N.of_nat (seq 0 (length data))) data.
Lemma ro_base_length data : length (ro_base data) = length data.
Proof. unfold ro_base. rewrite combine_length, map_length, seq_length. lia. Qed.
Definition ro_inv (data : list N) (s : rost) (pending : list (N * N)) (checks : nat) : Prop :=
  ro_mem s = data /\ ro_list s = ro_base data ++ pending /\ ro_step s = length pending /\ length (ro_checked s) = checks /\
  length pending < 8 * length data /\ Forall (fun l => length l = 9 * length data) (ro_checked s).
Lemma ro_read_inv data s pending checks i : ro_inv data s pending checks -> i < length data ->
  exists s', ro_read s i = Some (s', nth i data 0%N) /\
    if Nat.eqb (S (length pending)) (8 * length data) then ro_inv data s' [] (S checks)
    else ro_inv data s' (pending ++ [(N.of_nat i, nth i data 0%N)]) checks.
Proof.
  intros (H1 & H2 & H3 & H4 & H5 & H6) L. unfold ro_read. rewrite H1. unfold cell. rewrite (nth_error_nth' data 0%N L). eexists. split; [reflexivity|].
  cbn [ro_step ro_mem]. rewrite H3. rewrite (Nat.mul_comm (length data) 8). destruct (Nat.eqb_spec (S (length pending)) (8 * length data)) as [e|ne].
  - unfold ro_inv, ro_check. cbn [ro_mem ro_list ro_step ro_checked length]. rewrite H2, app_nil_r, <- app_assoc. split; [reflexivity|].
    split; [apply firstn_all_app, ro_base_length|]. split; [reflexivity|]. split; [rewrite app_length, H4; cbn; lia|]. split; [lia|].
    apply Forall_app. split; [exact H6|]. constructor; [|constructor]. rewrite !app_length, ro_base_length. cbn [length]. lia.
  - unfold ro_inv. cbn [ro_mem ro_list ro_step ro_checked]. rewrite H2, <- app_assoc, app_length. cbn [length]. repeat split; auto; lia.
Qed.
Lemma ro_reads_inv data is : forall s pending checks, ro_inv data s pending checks -> Forall (fun i => i < length data) is ->
  exists s' pending', ro_reads s is = Some (s', map (fun i => nth i data 0%N) is) /\
    ro_inv data s' pending' (checks + (length pending + length is) / (8 * length data)) /\
    length pending' = (length pending + length is) mod (8 * length data) /\
    exists drop, pending ++ ro_log data is = drop ++ pending'.
Proof.
  induction is as [|i is IH]; intros s pending checks I F.
  - exists s, pending. cbn [length map ro_reads ro_log]. rewrite Nat.add_0_r. assert (H := I). destruct H as (_ & _ & _ & _ & H5 & _).
    rewrite Nat.div_small, Nat.mod_small, Nat.add_0_r by exact H5. split; [reflexivity|]. split; [exact I|]. split; [reflexivity|]. exists []. now rewrite app_nil_r.
  - inversion F as [|? ? L F']; subst. destruct (ro_read_inv data s pending checks i I L) as [s1 [E1 I1]].
    assert (P8 : 8 * length data <> 0) by lia.
    cbn [ro_reads map length]. rewrite E1. destruct (Nat.eqb_spec (S (length pending)) (8 * length data)) as [e|ne].
    + destruct (IH s1 [] (S checks) I1 F') as (s' & pending' & E & I' & Lp & drop & Ed). exists s', pending'. rewrite E. split; [reflexivity|].
      cbn [length] in I', Lp. rewrite Nat.add_0_l in I', Lp.
      assert (Q : length pending + S (length is) = length is + 1 * (8 * length data)) by lia.
      rewrite Q, Nat.div_add, Nat.mod_add by exact P8. split; [|split; [exact Lp|]].
      * replace (checks + (length is / (8 * length data) + 1)) with (S checks + length is / (8 * length data)) by lia. exact I'.
      * exists (pending ++ (N.of_nat i, nth i data 0%N) :: drop). rewrite <- app_assoc. cbn [app ro_log map]. f_equal. f_equal. exact Ed.
    + destruct (IH s1 _ checks I1 F') as (s' & pending' & E & I' & Lp & drop & Ed). exists s', pending'. rewrite E. split; [reflexivity|].
      rewrite app_length in I', Lp. cbn [length] in I', Lp. replace (length pending + S (length is)) with (length pending + 1 + length is) by lia.
      split; [exact I'|]. split; [exact Lp|]. exists drop. rewrite <- Ed, <- app_assoc. reflexivity.
Qed.
Lemma ro_inv_init data : data <> [] -> ro_inv data (ro_init data) [] 0.
Proof.
  intro H. unfold ro_inv, ro_init, ro_base. cbn. rewrite app_nil_r. repeat split; auto. destruct data; [contradiction|]. cbn. lia.
Qed.

(** * Wide memory *)
Lemma x_no_cells nw s o : x_mem s = [] -> w_is_access o -> x_do nw s o = None.
Proof. intros E A. destruct o as [i|i v|]; try contradiction; cbn [x_do]; unfold cell; rewrite E; now destruct i. Qed.
(** reading a cell nobody wrote *)
Lemma x_fresh_read nw n s : forall os, x_run nw (x_init n) os = Some s -> (forall o, In o os -> w_is_access o) ->
  forall i, (forall v, ~ In (WWrite i v) os) -> x_do nw s (WRead i) = None.
Proof.
  intros os H A i Hn.
  assert (G : forall os s0, x_run nw s0 os = Some s -> (forall o, In o os -> w_is_access o) -> (forall v, ~ In (WWrite i v) os) ->
     (cell (x_mem s0) i = Some [] \/ cell (x_mem s0) i = None) -> cell (x_mem s) i = Some [] \/ cell (x_mem s) i = None).
  { clear H A Hn os. induction os as [|o os IH]; intros s0 H A Hn C; cbn [x_run] in H; [injection H as <-; exact C|].
    destruct (x_do nw s0 o) as [s1|] eqn:D; [|discriminate]. apply (IH s1 H); [intros; apply A; now right|intros v Hv; apply (Hn v); now right|].
    destruct o as [j|j w|].
    - cbn [x_do] in D. destruct (cell (x_mem s0) j); [|discriminate]. destruct (_ || _); [discriminate|]. injection D as <-. exact C.
    - cbn [x_do] in D. destruct (cell (x_mem s0) j); [|discriminate]. destruct (Nat.eqb _ _); [discriminate|]. injection D as <-. cbn [x_mem].
      rewrite cell_upd_neq; [exact C|]. intros ->. apply (Hn w). now left.
    - exfalso. apply (A WCheck). now left. }
  specialize (G os (x_init n) H A Hn). cbn [x_do]. destruct G as [->| ->].
  - cbn [x_init x_mem]. unfold cell. destruct (le_lt_dec (2 ^ n) i) as [L|L]; [right; apply nth_error_None; now rewrite repeat_length|left; now apply nth_error_repeat].
  - now rewrite orb_true_r.
  - reflexivity.
Qed.
(** words of a packed row as read back by check() *)
Lemma odd_half j : Nat.odd j = true -> (j + 1) / 2 = (j + 2) / 2 - 0 /\ (j + 1 + 1) / 2 = (j + 1) / 2 /\ Nat.odd (j + 1) = false.
Proof.
  intro H. apply Nat.odd_spec in H. destruct H as [k ->].
  replace (2 * k + 1 + 1) with ((k + 1) * 2) by lia. replace (2 * k + 1 + 2) with ((k + 1) * 2 + 1) by lia. replace ((k + 1) * 2 + 1) with (1 + (k + 1) * 2) by lia.
  rewrite Nat.div_add, Nat.div_mul by lia. cbn [Nat.div]. split; [cbn; lia|]. split; [reflexivity|].
  rewrite Nat.odd_mul. apply andb_false_r.
Qed.
Lemma x_unpack_loop_ok nw fuel : forall j, 2 <= nw -> (N.of_nat nw < 2 ^ 64)%N -> Nat.odd j = true -> j < nw -> nw <= j + 2 * fuel + 1 ->
  x_unpack_loop fuel nw j = Some (map (fun k => ((k + 1) / 2, Nat.odd k)) (seq j (nw - j))).
Proof.
  induction fuel as [|fuel IH]; intros j H2 Hb Oj Lj Lf.
  - cbn [x_unpack_loop]. assert (U : u64_sub (N.of_nat nw) 2 = (N.of_nat nw - 2)%N).
    { unfold u64_sub. replace (N.of_nat nw + 2 ^ 64 - 2)%N with ((N.of_nat nw - 2) + 1 * 2 ^ 64)%N by lia. rewrite N.mod_add by discriminate. apply N.mod_small. lia. }
    rewrite U. destruct (N.ltb_spec (N.of_nat j) (N.of_nat nw - 2)) as [G|G]; [lia|]. destruct (Nat.leb_spec nw j) as [G'|G']; [lia|].
    assert (nw = j + 1) by lia. subst nw. replace (j + 1 - j) with 1 by lia. destruct (odd_half j Oj) as [_ [_ ->]]. cbn [seq map]. now rewrite Oj.
  - cbn [x_unpack_loop]. assert (U : u64_sub (N.of_nat nw) 2 = (N.of_nat nw - 2)%N).
    { unfold u64_sub. replace (N.of_nat nw + 2 ^ 64 - 2)%N with ((N.of_nat nw - 2) + 1 * 2 ^ 64)%N by lia. rewrite N.mod_add by discriminate. apply N.mod_small. lia. }
    rewrite U. destruct (odd_half j Oj) as [_ [Hh Oj1]]. destruct (N.ltb_spec (N.of_nat j) (N.of_nat nw - 2)) as [G|G].
    + destruct (Nat.leb_spec nw (j + 1)) as [G'|G']; [lia|].
      assert (Oj2 : Nat.odd (j + 2) = true) by (rewrite Nat.odd_add, Oj; reflexivity).
      rewrite (IH (j + 2)) by (auto; lia). f_equal. replace (nw - j) with (S (S (nw - (j + 2)))) by lia. cbn [seq map].
      replace (S j) with (j + 1) by lia. replace (S (j + 1)) with (j + 2) by lia. now rewrite Oj, Hh, Oj1.
    + destruct (Nat.leb_spec nw j) as [G'|G']; [lia|]. assert (C : nw = j + 1 \/ nw = j + 2) by lia. destruct C as [->| ->].
      * replace (j + 1 - j) with 1 by lia. rewrite Oj1. cbn [seq map]. now rewrite Oj.
      * replace (j + 2 - j) with 2 by lia. assert (Oj2 : Nat.odd (j + 2) = true) by (rewrite Nat.odd_add, Oj; reflexivity). rewrite Oj2. cbn [seq map].
        replace (S j) with (j + 1) by lia. now rewrite Oj, Hh, Oj1.
Qed.
Lemma x_unpack_plan_ok nw : 2 <= nw -> (N.of_nat nw < 2 ^ 64)%N -> x_unpack_plan nw = Some (map (fun k => ((k + 1) / 2, Nat.odd k)) (seq 0 nw)).
Proof.
  intros H Hb. unfold x_unpack_plan. rewrite (x_unpack_loop_ok nw nw 1) by (auto; lia). destruct nw as [|nw]; [lia|]. cbn [seq map]. replace (S nw - 1) with nw by lia. reflexivity.
Qed.
