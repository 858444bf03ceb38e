(** The words seen by the verifier of the conversion engine are a bijective function of the mask values. *)
From Coq Require Import NArith List Bool Arith Lia Ring.
From Verif Require Import Word WordProofs FpModel FpProofs ListUtil Prime61 ArithModel ArithSpec ArithProofs CopeProofs
  LowMcProofs EdaModel EdaSpec EdaStock EdaProofs EdaThms EdaCutSpec EdaCutThms EdaHideSpec.
Import ListNotations.
Ltac Zify.zify_post_hook ::= idtac.
Add Ring fp_ring : fp_rt.

Lemma mod_lt a : (a mod PR < PR)%N. Proof. apply N.mod_upper_bound. discriminate. Qed.
Lemma PR_W x : (x < PR)%N -> (x < W64)%N. Proof. intro H. eapply N.lt_trans; [exact H|reflexivity]. Qed.
Lemma canon_nth n l i : canon n l -> (nth i l 0 < PR)%N.
Proof.
  intros [_ F]. destruct (Nat.lt_ge_cases i (length l)) as [L|L].
  - rewrite Forall_forall in F. apply F. now apply nth_In.
  - rewrite nth_overflow by exact L. reflexivity.
Qed.
Lemma cands_hi fs ms n n' i : canon n fs -> canon n' ms -> hi64 (cands fs ms i) = nth i fs 0%N.
Proof. intros _ H. unfold cands. apply hi64_mk, PR_W. now apply (canon_nth n'). Qed.
Lemma cands_lo fs ms n n' i : canon n fs -> canon n' ms -> lo64 (cands fs ms i) = nth i ms 0%N.
Proof. intros _ H. unfold cands. apply lo64_mk, PR_W. now apply (canon_nth n'). Qed.

(** word of a conversion for the mask value f, and the mask value for a word *)
Definition cval (c : conv) (f : N) : N := match c with ToArith x => ((x + (PR - f)) mod PR)%N | ToBool a => ((f + hi64 a) mod PR)%N end.
Definition cinv (c : conv) (v : N) : N := match c with ToArith x => ((x + (PR - v)) mod PR)%N | ToBool a => ((v + (PR - hi64 a)) mod PR)%N end.
Lemma cword c m : conv_ok c -> (hi64 m < PR)%N -> (lo64 m < PR)%N -> conv_word c m = cval c (hi64 m).
Proof.
  intros H Hm Hl. destruct c as [x|a]; cbn [conv_word cval conv_ok] in *; change prm with PR in H.
  - unfold b2a_prv. cbn [fst]. exact (diff_ok _ _ H Hm).
  - unfold a2b_open, op_send_fp, fp_add_prv. cbn [fst]. destruct H as [H1 H2]. rewrite hi64_mk.
    + exact (am_val _ _ Hm H1).
    + apply PR_W. rewrite (am_val _ _ Hl H2). apply mod_lt.
Qed.
Lemma cval_lt c f : (cval c f < PR)%N. Proof. destruct c; apply mod_lt. Qed.
Lemma cinv_lt c f : (cinv c f < PR)%N. Proof. destruct c; apply mod_lt. Qed.
Lemma sub_back a b : (b <= PR)%N -> toF ((a + (PR - b)) mod PR) = psub (toF a) (toF b).
Proof. rewrite toF_mod, toF_add. intro H. replace (toF (PR - b)) with (psub (toF PR) (toF b)); [replace (toF PR) with p0 by (now apply (proj2 (toF_eq 0 PR))); ring|]. symmetry. now apply toF_sub. Qed.
Lemma cinv_cval c f : conv_ok c -> (f < PR)%N -> cinv c (cval c f) = f.
Proof.
  intros H Hf. apply toF_inj; [apply cinv_lt|exact Hf|]. destruct c as [x|a]; cbn [cinv cval conv_ok] in *; change prm with PR in H.
  - rewrite sub_back by (apply lt_le, mod_lt). rewrite sub_back by exact (lt_le _ Hf). ring.
  - rewrite sub_back by exact (lt_le _ (proj1 H)). rewrite toF_mod, toF_add. ring.
Qed.
Lemma cval_cinv c v : conv_ok c -> (v < PR)%N -> cval c (cinv c v) = v.
Proof.
  intros H Hf. apply toF_inj; [apply cval_lt|exact Hf|]. destruct c as [x|a]; cbn [cinv cval conv_ok] in *; change prm with PR in H.
  - rewrite sub_back by (apply lt_le, mod_lt). rewrite sub_back by exact (lt_le _ Hf). ring.
  - rewrite toF_mod, toF_add. rewrite sub_back by exact (lt_le _ (proj1 H)). ring.
Qed.
Lemma comb_map_seq (cs : list conv) (g : nat -> conv -> N) :
  map (fun ci => g (fst ci) (snd ci)) (combine (seq 0 (length cs)) cs) = map (fun i => g i (nth i cs (ToArith 0))) (seq 0 (length cs)).
Proof.
  assert (Q : forall s l, map (fun ci => g (fst ci) (snd ci)) (combine (seq s (length l)) l) =
                          map (fun i => g i (nth (i - s) l (ToArith 0))) (seq s (length l))).
  { intros s l. revert s. induction l as [|c l IH]; intro s; [reflexivity|]. cbn [length seq combine map]. f_equal.
    - cbn [fst snd]. now rewrite Nat.sub_diag.
    - rewrite IH. apply map_ext_in. intros i Hi. apply in_seq in Hi. replace (i - s) with (S (i - S s)) by lia. reflexivity. }
  rewrite Q. apply map_ext. intro i. now rewrite Nat.sub_0_r.
Qed.

Section One.
  Variables (NN C r : nat) (cs : list conv).
  Hypotheses (HN : 1 <= NN) (Hr : r < NN + C) (HrC : r + C <= NN + C) (Hk : length cs <= NN) (Hcs : Forall conv_ok cs).
  Notation M := (NN + C).
  Notation L := (2 * NN + C).
  Notation k := (length cs).
  Notation cj j := (nth j cs (ToArith 0)).
  Lemma cj_ok j : conv_ok (cj j).
  Proof.
    destruct (Nat.lt_ge_cases j k) as [H|H].
    - rewrite Forall_forall in Hcs. now apply Hcs, nth_In.
    - rewrite nth_overflow by exact H. reflexivity.
  Qed.
  Lemma view_eq fs ms : canon L fs -> canon L ms -> gen_view NN C r cs fs ms =
    {| g_open := map (fun q => nth (NN + (r + q)) fs 0%N) (seq 0 C);
       g_sums := map (fun i => ((nth i fs 0 + nth (mate NN C r i) fs 0) mod PR)%N) (seq 0 NN);
       g_conv := map (fun j => cval (cj j) (nth j fs 0%N)) (seq 0 k);
       g_rest := skipn k (firstn NN fs) |}.
  Proof.
    intros Hf Hm. unfold gen_view. assert (Hr' : r < ell_faulty NN 2 C) by (rewrite fault_eq; exact Hr).
    rewrite (gen_prv_eq NN C _ (fun _ => 0%N) _ (fun _ => []) _ (fun _ => []) r HN Hr'). cbv zeta. unfold op_send_both. cbn [fst nth].
    f_equal.
    - rewrite map_map. apply map_ext. intro q. cbn [snd]. now apply (cands_hi fs ms L L).
    - rewrite map_map. apply map_ext. intro i. cbn [snd]. unfold addp, fp_add_prv. rewrite partner_mate. rewrite hi64_mk.
      + rewrite !(cands_hi fs ms L L) by assumption. apply am_val; now apply (canon_nth L).
      + apply PR_W. rewrite am_val; [apply mod_lt| |]; rewrite (cands_lo fs ms L L) by assumption; now apply (canon_nth L).
    - rewrite (comb_map_seq cs (fun i c => conv_word c (cands fs ms i))). apply map_ext. intro j.
      rewrite cword; [now rewrite (cands_hi fs ms L L)|apply cj_ok| |].
      + rewrite (cands_hi fs ms L L) by assumption. now apply (canon_nth L).
      + rewrite (cands_lo fs ms L L) by assumption. now apply (canon_nth L).
  Qed.
  (** the mask values that give the view *)
  Definition mval (v : gview) (j : nat) : N := if Nat.ltb j k then cinv (cj j) (nth j (g_conv v) 0%N) else nth (j - k) (g_rest v) 0%N.
  Definition fval (v : gview) (i : nat) : N :=
    if Nat.ltb i NN then mval v i
    else let t := (i - NN + M - r) mod M in
         if Nat.ltb t C then nth t (g_open v) 0%N else ((nth (t - C) (g_sums v) 0 + (PR - mval v (t - C))) mod PR)%N.
  Definition solve (v : gview) : list N := map (fval v) (seq 0 L).
  Lemma t_open q : q < C -> (NN + (r + q) - NN + M - r) mod M = q.
  Proof. intro H. replace (NN + (r + q) - NN + M - r) with (q + 1 * M) by lia. rewrite Nat.mod_add by lia. apply Nat.mod_small. lia. Qed.
  Lemma t_mate i : i < NN -> (mate NN C r i - NN + M - r) mod M = C + i.
  Proof.
    intro H. unfold mate. replace (NN + (r + C + i) mod M - NN + M - r) with ((r + C + i) mod M + (M - r)) by lia.
    rewrite Nat.add_mod_idemp_l by lia. replace (r + C + i + (M - r)) with (C + i + 1 * M) by lia. rewrite Nat.mod_add by lia. apply Nat.mod_small. lia.
  Qed.
  Lemma nth_solve v i : i < L -> nth i (solve v) 0%N = fval v i.
  Proof.
    intro H. unfold solve. rewrite (nth_indep _ 0%N (fval v 0)) by (rewrite map_length, seq_length; exact H).
    rewrite map_nth. now rewrite seq_nth by exact H.
  Qed.
  Lemma mval_lt v j : view_ok NN C k v -> (mval v j < PR)%N.
  Proof. intros (_ & _ & _ & H). unfold mval. destruct (Nat.ltb j k); [apply cinv_lt|now apply (canon_nth (NN - k))]. Qed.
  Lemma fval_lt v i : view_ok NN C k v -> (fval v i < PR)%N.
  Proof.
    intro H. unfold fval. destruct (Nat.ltb i NN); [now apply mval_lt|]. cbv zeta. destruct H as (H & _).
    destruct (Nat.ltb _ C); [now apply (canon_nth C)|apply mod_lt].
  Qed.
  Lemma list_eta (l : list N) n : length l = n -> map (fun i => nth i l 0%N) (seq 0 n) = l.
  Proof. intros <-. apply map_nth_seq. Qed.
  Lemma solve_canon v : view_ok NN C k v -> canon L (solve v).
  Proof.
    intro H. split; [unfold solve; now rewrite map_length, seq_length|]. apply Forall_forall. intros x Hx.
    apply in_map_iff in Hx. destruct Hx as (i & <- & _). now apply fval_lt.
  Qed.
  Lemma rest_nth (l : list N) : length l = L -> skipn k (firstn NN l) = map (fun j => nth (k + j) l 0%N) (seq 0 (NN - k)).
  Proof.
    intro E. apply nth_ext with (d := 0%N) (d' := 0%N).
    - rewrite map_length, seq_length, skipn_length, firstn_length. lia.
    - rewrite skipn_length, firstn_length. intros j Hj.
      rewrite nth_skipn. rewrite (nth_indep (map _ _) 0%N (nth (k + 0) l 0%N)) by (rewrite map_length, seq_length; lia).
      rewrite (map_nth (fun j => nth (k + j) l 0%N)). rewrite seq_nth by lia. cbn [Nat.add].
      rewrite <- (firstn_skipn NN l) at 2. rewrite app_nth1; [reflexivity|]. rewrite firstn_length. lia.
  Qed.
  Theorem solve_view v ms : view_ok NN C k v -> canon L ms -> gen_view NN C r cs (solve v) ms = v.
  Proof.
    intros H Hm. rewrite view_eq by (auto; now apply solve_canon). pose proof H as (H1 & H2 & H3 & H4).
    destruct v as [o s c u]. cbn [g_open g_sums g_conv g_rest] in *. set (v := {| g_open := o; g_sums := s; g_conv := c; g_rest := u |}) in *.
    assert (FM : forall j, j < NN -> fval v j = mval v j) by (intros j Hj; unfold fval; destruct (Nat.ltb_spec j NN); [reflexivity|lia]).
    transitivity (Build_gview o s c u); [|reflexivity]. f_equal.
    - transitivity (map (fun i => nth i o 0%N) (seq 0 C)); [|apply list_eta; apply H1]. apply map_ext_in. intros q Hq. apply in_seq in Hq.
      rewrite nth_solve by lia. unfold fval. destruct (Nat.ltb_spec (NN + (r + q)) NN); [lia|]. cbv zeta. rewrite t_open by lia.
      destruct (Nat.ltb_spec q C); [reflexivity|lia].
    - transitivity (map (fun i => nth i s 0%N) (seq 0 NN)); [|apply list_eta; apply H2]. apply map_ext_in. intros i Hi. apply in_seq in Hi.
      pose proof (mate_lt NN C r i HN) as Q. rewrite !nth_solve by lia. rewrite FM by lia.
      unfold fval. destruct (Nat.ltb_spec (mate NN C r i) NN); [lia|]. cbv zeta. rewrite t_mate by lia.
      destruct (Nat.ltb_spec (C + i) C); [lia|]. replace (C + i - C) with i by lia.
      pose proof (mval_lt v i H) as B. change (g_sums v) with s. pose proof (canon_nth NN s i H2) as B2.
      apply toF_inj; [apply mod_lt|exact B2|]. rewrite toF_mod, toF_add. rewrite sub_back by now apply lt_le. ring.
    - transitivity (map (fun i => nth i c 0%N) (seq 0 k)); [|apply list_eta; apply H3]. apply map_ext_in. intros j Hj. apply in_seq in Hj.
      rewrite nth_solve, FM by lia. unfold mval. destruct (Nat.ltb_spec j k); [|lia]. apply cval_cinv; [apply cj_ok|]. now apply (canon_nth k).
    - rewrite rest_nth by (unfold solve; now rewrite map_length, seq_length).
      transitivity (map (fun i => nth i u 0%N) (seq 0 (NN - k))); [|apply list_eta; apply H4]. apply map_ext_in. intros j Hj. apply in_seq in Hj.
      rewrite nth_solve, FM by lia. unfold mval. destruct (Nat.ltb_spec (k + j) k); [lia|]. replace (k + j - k) with j by lia. reflexivity.
  Qed.
  Lemma nth_mapseq (g : nat -> N) n j : j < n -> nth j (map g (seq 0 n)) 0%N = g j.
  Proof.
    intro H. rewrite (nth_indep _ 0%N (g 0)) by (rewrite map_length, seq_length; exact H). rewrite map_nth. now rewrite seq_nth.
  Qed.
  Theorem solve_unique fs ms : canon L fs -> canon L ms -> solve (gen_view NN C r cs fs ms) = fs.
  Proof.
    intros Hf Hm. rewrite view_eq by assumption. set (v := Build_gview _ _ _ _).
    unfold solve. transitivity (map (fun i => nth i fs 0%N) (seq 0 L)); [|apply list_eta; apply Hf].
    apply map_ext_in. intros i Hi. apply in_seq in Hi.
    assert (MV : forall j, j < NN -> mval v j = nth j fs 0%N).
    { intros j Hj. unfold mval. destruct (Nat.ltb_spec j k) as [Lj|Lj]; unfold v; cbn [g_conv g_rest].
      - rewrite (nth_mapseq (fun j => cval (cj j) (nth j fs 0%N))) by exact Lj. apply cinv_cval; [apply cj_ok|now apply (canon_nth L)].
      - rewrite rest_nth by apply Hf. rewrite (nth_mapseq (fun j => nth (k + j) fs 0%N)) by lia. f_equal. lia. }
    unfold fval. destruct (Nat.ltb_spec i NN) as [Li|Li]; [now apply MV|]. cbv zeta.
    set (t := (i - NN + M - r) mod M). assert (Ht : t < M) by (apply Nat.mod_upper_bound; lia).
    assert (Ei : i = NN + (r + t) mod M).
    { unfold t. rewrite Nat.add_mod_idemp_r by lia. replace (r + (i - NN + M - r)) with (i - NN + 1 * M) by lia. rewrite Nat.mod_add by lia.
      rewrite Nat.mod_small by lia. lia. }
    destruct (Nat.ltb_spec t C) as [Lt|Lt]; unfold v; cbn [g_open g_sums].
    - rewrite (nth_mapseq (fun q => nth (NN + (r + q)) fs 0%N)) by exact Lt. rewrite Ei, Nat.mod_small by lia. reflexivity.
    - rewrite (nth_mapseq (fun i => ((nth i fs 0 + nth (mate NN C r i) fs 0) mod PR)%N)) by lia. fold v. rewrite MV by lia.
      replace (mate NN C r (t - C)) with i by (unfold mate; rewrite Ei at 1; do 2 f_equal; lia).
      apply toF_inj; [apply mod_lt|now apply (canon_nth L)|]. rewrite sub_back by (apply lt_le; now apply (canon_nth L)).
      rewrite toF_mod, toF_add. ring.
  Qed.
  Theorem view_shape fs ms : canon L fs -> canon L ms -> view_ok NN C k (gen_view NN C r cs fs ms).
  Proof.
    intros Hf Hm. rewrite view_eq by assumption. unfold view_ok. cbn [g_open g_sums g_conv g_rest].
    assert (Q : forall g n, (forall i, (g i < PR)%N) -> canon n (map g (seq 0 n))).
    { intros g n H. split; [now rewrite map_length, seq_length|]. apply Forall_forall. intros x Hx. apply in_map_iff in Hx. destruct Hx as (i & <- & _). apply H. }
    split; [|split; [|split]].
    - apply Q. intro i. now apply (canon_nth L).
    - apply Q. intro i. apply mod_lt.
    - apply Q. intro i. apply cval_lt.
    - rewrite rest_nth by apply Hf. apply Q. intro i. now apply (canon_nth L).
  Qed.
End One.

Section Many.
  Variables (NN C : nat) (st : strategy).
  Hypotheses (HN : 1 <= NN) (Hst : strat_ok NN C st).
  Notation L := (2 * NN + C).
  Theorem views_shape : forall gens past, Forall (fun g => canon L (fst g) /\ canon L (snd g)) gens -> views_ok NN C st past (views NN C st past gens).
  Proof.
    induction gens as [|[fs ms] gens IH]; intros past H; [exact I|]. inversion H as [|? ? [H1 H2] H3]; subst. cbn [views views_ok].
    destruct (Hst past) as (S1 & S2 & S3 & S4). split; [now apply view_shape|]. now apply IH.
  Qed.
  Theorem views_unique : forall mss vs past, length mss = length vs -> Forall (canon L) mss -> views_ok NN C st past vs ->
    exists fss, (length fss = length mss /\ Forall (canon L) fss /\ views NN C st past (combine fss mss) = vs) /\
    forall fss', length fss' = length mss /\ Forall (canon L) fss' /\ views NN C st past (combine fss' mss) = vs -> fss' = fss.
  Proof.
    induction mss as [|ms mss IH]; intros [|v vs] past E Hm Hv; try discriminate E.
    - exists []. split; [split; [reflexivity|split; [constructor|reflexivity]]|]. intros [|f fss'] (E' & _); [reflexivity|discriminate E'].
    - inversion Hm as [|? ? Hm1 Hm2]; subst. destruct Hv as [Hv1 Hv2]. injection E as E.
      destruct (Hst past) as (S1 & S2 & S3 & S4).
      destruct (IH vs (past ++ [seen v]) E Hm2 Hv2) as (fss & (F1 & F2 & F3) & FU).
      exists (solve NN C (fst (st past)) (snd (st past)) v :: fss). split; [split; [|split]|].
      + cbn [length]. now rewrite F1.
      + constructor; [now apply solve_canon|exact F2].
      + cbn [combine views]. rewrite solve_view by assumption. now rewrite F3.
      + intros [|fs fss'] (E1 & E2 & E3); [discriminate E1|]. inversion E2 as [|? ? E21 E22]; subst. cbn [combine views] in E3.
        injection E1 as E1. injection E3 as V1 V2. f_equal.
        * rewrite <- V1. symmetry. now apply solve_unique.
        * apply FU. split; [exact E1|]. split; [exact E22|]. now rewrite V1 in V2.
  Qed.
End Many.
