(** Property C57: whole sessions of the conversion engine. *)
From Coq Require Import NArith List Bool Arith Lia Ring.
From Verif Require Import Word WordProofs FpModel Prime61 ArithSpec ArithProofs CopeProofs EdaModel EdaSpec EdaProofs EdaThms GameSpec
  EdaCutSpec EdaCutThms EdaSessSpec EdaSessThms.
Import ListNotations.
Ltac Zify.zify_post_hook ::= idtac.
Add Ring fp_ring : fp_rt.

(** ** Honest sessions: for every key the verifier's hash input is the prover's, and every conversion is right. *)
Theorem C57_honest_session : forall NN C st rs d2 df, 1 <= NN -> 1 <= C -> strat_auth NN C st -> Forall (fun r => r <= NN) rs ->
  honest_sess NN C st [] rs -> no_sum_p NN C st [] rs -> (df < prm)%N ->
  sess_hash NN C st [] rs d2 df = sess_prv NN C st [] rs /\ all_right st [] rs = true.
Proof. intros NN C st rs d2 df HN HC Hs F H P Hd. now apply honest_accepted. Qed.
(** what a right conversion is *)
Theorem C57_right_means : forall NN C, 1 <= NN -> forall g c, cand_auth NN C g -> conv_auth NN g c -> (rightb g c = true <-> right g c).
Proof. exact right_iff. Qed.
(** ** Fixed offsets: a wrong result although the halves of all delivered masks agree, or a disagreement a run looks at,
    whatever words up to p and whatever hash input: all accepting key pairs share the boolean or share the field key. *)
Theorem C57_wrong_needs_key : forall NN C st rs h, 1 <= NN -> 1 <= C -> strat_auth NN C st -> Forall (fun r => r <= NN) rs ->
  ~ all_survive NN C st [] rs \/ (masks_good NN st [] rs /\ all_right st [] rs = false) ->
  let acc d2 df := (df < prm)%N /\ sess_hash NN C st [] rs d2 df = h in
  (forall d2 df d2' df', acc d2 df -> acc d2' df' -> d2 = d2') \/ (forall d2 df d2' df', acc d2 df -> acc d2' df' -> df = df').
Proof.
  intros NN C st rs h HN HC Hs F W acc. destruct (sess_keys NN C st HN HC Hs rs [] h F) as [[S G]|[K|K]].
  - exfalso. destruct W as [W|[M W]]; [now apply W|]. pose proof (good_all_right NN C st HN Hs rs [] F G M) as Q. congruence.
  - left. intros d2 df d2' df' [A B] [A' B']. now apply (K d2 df d2' df').
  - right. intros d2 df d2' df' [A B] [A' B']. now apply (K d2 df d2' df').
Qed.
(** ** Counted over the offsets of all generations and the keys, for a prover that adapts to the offsets it has seen. *)
Definition cheats (NN C : nat) (st : strat) (h : list nat -> list hitem) (x : list nat * (N * N)) : bool :=
  let '(rs, (d2, df)) := x in
  (if list_eq_dec hitem_dec (sess_hash NN C st [] rs d2 df) (h rs) then true else false) && negb (all_right st [] rs).
Theorem C57_counted : forall NN C st h D2 DF q n, 1 <= NN -> 1 <= C -> strat_auth NN C st ->
  NoDup D2 -> NoDup DF -> (forall d, In d DF -> (d < prm)%N) ->
  (forall d, Nat.divide d (NN + C) -> C < d -> q <= d) ->
  cnt (cheats NN C st h) (list_prod (tuples (S n) (seq 0 (S NN))) (list_prod D2 DF)) * q <=
  (NN + C) * S NN ^ n * (length D2 * length DF) + S NN ^ S n * (length D2 + length DF) * q.
Proof.
  intros NN C st h D2 DF q n HN HC Hs N2 NF HF Hq.
  replace (cnt (cheats NN C st h) (list_prod (tuples (S n) (seq 0 (S NN))) (list_prod D2 DF)))
    with (cnt (fun x => cheatb NN C st h (fst x) (snd x)) (list_prod (tuples (S n) (seq 0 (S NN))) (list_prod D2 DF))).
  - apply sess_counted; auto.
  - unfold cnt. f_equal. apply filter_ext. intros (rs & d2 & df). reflexivity.
Qed.
(** the constants of the code: N = 800000, C = 2 *)
Theorem C57_code_counted : forall st h D2 DF n, let NN := 800 * 1000 in strat_auth NN 2 st ->
  NoDup D2 -> NoDup DF -> (forall d, In d DF -> (d < prm)%N) ->
  cnt (cheats NN 2 st h) (list_prod (tuples (S n) (seq 0 (S NN))) (list_prod D2 DF)) * 7 <=
  (NN + 2) * S NN ^ n * (length D2 * length DF) + S NN ^ S n * (length D2 + length DF) * 7.
Proof.
  intros st h D2 DF n NN Hs N2 NF HF. apply C57_counted; auto; [unfold NN; lia|].
  intros d (k & Hk) Hd. clear - Hk Hd. unfold NN in Hk.
  destruct (Nat.lt_ge_cases d 7) as [L|L]; [exfalso|exact L].
  assert (Q : d = 3 \/ d = 4 \/ d = 5 \/ d = 6) by lia. destruct Q as [->|[->|[->| ->]]]; lia.
Qed.

(** ** Example: authenticated sessions from any field values, any macs and any boolean words *)
Section Demo.
  Definition keyl (lab : list N) (v d : N) : list N :=
    map (fun j => N.lxor (nth j lab 0%N) (if N.testbit v (N.of_nat j) then d else 0%N)) (seq 0 62).
  Lemma keyl_ok lab v d : length lab = 62 -> bauth d lab (keyl lab v d) v.
  Proof.
    intro L. split; [exact L|]. split; [unfold keyl; now rewrite map_length, seq_length|]. intros j Hj.
    set (h := fun j => N.lxor (nth j lab 0%N) (if N.testbit v (N.of_nat j) then d else 0%N)).
    assert (E : nth j (keyl lab v d) 0%N = h j).
    { unfold keyl. fold h. rewrite (nth_indep _ 0%N (h 0)) by (rewrite map_length, seq_length; exact Hj). rewrite map_nth. now rewrite seq_nth by exact Hj. }
    rewrite E. unfold h. rewrite N.lxor_assoc, N.lxor_nilpotent. now rewrite N.lxor_0_r.
  Qed.
  Lemma mk_share f m d : (f < prm)%N -> (m < prm)%N -> share_ok d (mkblock f m) (fsub m (f * d)).
  Proof.
    intros Hf Hm. change prm with PR in *. assert (Lm : (m < W64)%N) by (eapply N.lt_trans; [exact Hm|reflexivity]).
    apply share_F. rewrite hi64_mk, lo64_mk by exact Lm. split; [repeat split; auto; apply fsub_lt|]. rewrite fsub_F, toF_mul. ring.
  Qed.
  Variables (NN C : nat) (f m w : list nat -> nat -> N) (lab : nat -> list N).
  Hypotheses (Hf : forall past i, (f past i < prm)%N) (Hm : forall past i, (m past i < prm)%N) (Hw : forall past i, (w past i < prm)%N)
    (Hlab : forall s, length (lab s) = 62).
  Variable cs : list nat -> nat -> list (bool * (nat * N)).
  Definition demo_cand (past : list nat) : gcand :=
    {| c_ap := fun i => mkblock (f past i) (m past i); c_bl := lab; c_w := w past;
       c_ak := fun d i => fsub (m past i) (f past i * d); c_bk := fun d i => keyl (lab i) (w past i) d |}.
  Definition demo_conv (past : list nat) (c : bool * (nat * N)) : cdata :=
    let '(b, (i, x)) := c in
    if b then CvB i x (lab i) (keyl (lab i) (b2a_diff x (w past i))) (b2a_diff x (w past i))
    else CvA i (mkblock x 3) (fun d => fsub 3 (x * d)) (fst (a2b_open (mkblock (f past i) (m past i)) (mkblock x 3))).
  Definition demo_talk (past : list nat) (r : nat) : gtalk :=
    let sums i := bucket_f2 (w past i) (w past (mate NN C r i)) in
    {| t_sl := lab; t_sk := fun d i => keyl (lab i) (sums i) d;
       t_vo := map (fun q => w past (NN + (r + q))) (seq 0 C); t_vb := map sums (seq 0 NN);
       t_conv := map (demo_conv past) (cs past r) |}.
  Definition demo : strat := {| s_cand := demo_cand; s_talk := demo_talk |}.
  Lemma demo_auth : 1 <= NN -> 1 <= C -> (forall past r, Forall (fun c => fst (snd c) < NN /\ (snd (snd c) < prm)%N) (cs past r)) -> strat_auth NN C demo.
  Proof.
    intros HN HC Hcs. split.
    - intro past. split; [|split]; cbn.
      + intros i _. apply Hw.
      + intros d i _ _. now apply mk_share.
      + intros d i _. now apply keyl_ok.
    - intros past r Hr. split; [|split; [|split; [|split]]]; cbn [t_sl t_sk t_vo t_vb t_conv s_talk s_cand demo demo_talk demo_cand c_w].
      + intros d i Hi. now apply keyl_ok.
      + now rewrite map_length, seq_length.
      + now rewrite map_length, seq_length.
      + apply Forall_app. split; apply Forall_forall; intros v Hv; apply in_map_iff in Hv; destruct Hv as (i & <- & _); [apply N.lt_le_incl, Hw|].
        apply bucket_lt; apply Hw.
      + apply Forall_forall. intros c Hc. apply in_map_iff in Hc. destruct Hc as ((b & i & x) & <- & Hin).
        specialize (Hcs past r). rewrite Forall_forall in Hcs. specialize (Hcs _ Hin). cbn [fst snd] in Hcs. destruct Hcs as [H1 H2].
        assert (Z3 : (3 < prm)%N) by reflexivity.
        unfold demo_conv. destruct b; cbn [conv_auth].
        * split; [exact H1|]. split; [exact H2|]. split; [|intro d; apply keyl_ok, Hlab].
          rewrite diff_ok by (exact H2 || apply Hw). apply N.lt_le_incl, N.mod_upper_bound. discriminate.
        * split; [exact H1|]. split; [|intros d _; now apply mk_share].
          unfold a2b_open, op_send_fp. cbn [fst].
          destruct (add_share 0%N _ _ _ _ (mk_share (f past i) (m past i) 0%N (Hf _ _) (Hm _ _)) (mk_share x 3 0%N H2 Z3)) as [_ ->].
          apply N.lt_le_incl, N.mod_upper_bound. discriminate.
  Qed.
End Demo.
(** four masks, two opened: two generations, conversions both ways.  With equal halves the session is accepted and right; with
    masks planted in the first generation it is accepted and wrong at offset 3, rejected at offset 1 *)
Definition demo_f (past : list nat) (i : nat) : N := ((N.of_nat (i * i + 5 * i + 3 + length past) * 1000000007 * 998244353) mod prm)%N.
Definition demo_lab (s : nat) : list N := map (fun j => N.of_nat s * 100 + N.of_nat j * N.of_nat j + 7)%N (seq 0 62).
Definition demo_w (past : list nat) (i : nat) : N :=
  match past with
  | [] => if Nat.ltb i 4 then (if Nat.eqb (i mod 3) 0 then (demo_f past i + 5) mod prm else demo_f past i)%N
          else (if Nat.eqb ((i - 4) mod 3) 2 then (demo_f past i + (prm - 5)) mod prm else demo_f past i)%N
  | _ => demo_f past i
  end.
Definition demo_cs (past : list nat) (r : nat) : list (bool * (nat * N)) := [(true, (0, 100%N)); (false, (3, N.of_nat (r + 200)))].
Definition demo_run (w : list nat -> nat -> N) (rs : list nat) : bool * bool :=
  let st := demo 4 2 demo_f demo_f w demo_lab demo_cs in
  ((if list_eq_dec hitem_dec (sess_hash 4 2 st [] rs 987654321987654321%N 1234567890123%N) (sess_prv 4 2 st [] rs) then true else false),
   all_right st [] rs).
Example C57_case : demo_run demo_f [1; 3] = (true, true) /\ demo_run demo_w [3; 1] = (true, false) /\ demo_run demo_w [1; 1] = (false, false).
Proof. vm_compute. repeat split. Qed.
Lemma demo_bounds : (forall past i, (demo_f past i < prm)%N) /\ (forall past i, (demo_w past i < prm)%N).
Proof.
  assert (F : forall past i, (demo_f past i < prm)%N) by (intros; apply N.mod_upper_bound; discriminate).
  split; [exact F|]. intros past i. unfold demo_w. destruct past; [|apply F].
  destruct (Nat.ltb i 4); [destruct (Nat.eqb (i mod 3) 0)|destruct (Nat.eqb ((i - 4) mod 3) 2)]; try apply F; apply N.mod_upper_bound; discriminate.
Qed.
Example C57_demo_auth : strat_auth 4 2 (demo 4 2 demo_f demo_f demo_w demo_lab (fun _ _ => [(true, (0, 100%N)); (false, (3, 200%N))])).
Proof.
  apply demo_auth; try apply demo_bounds; try lia.
  - intro s. unfold demo_lab. now rewrite map_length, seq_length.
  - intros past r. repeat constructor; cbn; lia || reflexivity.
Qed.

Print Assumptions C57_honest_session.
Print Assumptions C57_right_means.
Print Assumptions C57_wrong_needs_key.
Print Assumptions C57_counted.
Print Assumptions C57_code_counted.
