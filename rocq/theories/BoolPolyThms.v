(** Completeness and soundness of the boolean polynomial proofs. *)
From Coq Require Import NArith List Bool Arith Lia Ring.
From Verif Require Import Word WordProofs GF128 GF128Ring GF128Field PolyRoots BoolModel BoolSpec BoolProofs BoolAlg BoolThms BoolThms2
  BoolPolyModel BoolPolySpec BoolPolyProofs.
Import ListNotations.
Ltac Zify.zify_post_hook ::= idtac.

Section Batch.
  Variables (d seed : N) (ope : list N).
  Definition sope : list (N * bool) := map (fun M => (M, getLSB M)) ope.
  Definition bcoef (n : nat) : list GF := map toG (gf_coeff_gen seed n).
  Lemma chi_toG n : map toG (firstn n (pp_chi seed n)) = bcoef n.
  Proof.
    unfold pp_chi, bcoef, gf_coeff_gen. rewrite <- powers_prefix; [reflexivity|].
    destruct (Nat.ltb_spec 4 n); lia.
  Qed.
  Definition c0 (sb : list (N * N * bool)) := gdot (bcoef (length sb)) (map (fun s => toG (fst (fst s))) sb).
  Definition c1 (sb : list (N * N * bool)) := gdot (bcoef (length sb)) (map (fun s => toG (snd (fst s))) sb).
  Definition poly (s : N * N * bool) : GF :=
    gadd (gadd (toG (fst (fst s))) (gmul (toG (snd (fst s))) (toG d))) (gmul (b2g (snd s)) (gmul (toG d) (toG d))).
  Lemma ope_pack : toG (packing (map (ot_key d) ope)) = gadd (gO0 sope) (gmul (gO1 sope) (toG d)).
  Proof.
    rewrite <- pack_decomp. unfold sope. rewrite map_map. reflexivity.
  Qed.
  Lemma accept_iff sb vb msg : map toG vb = map poly sb -> (fst msg < 2 ^ 128)%N ->
    (ver_check_sum d vb seed (map (ot_key d) ope) msg = true <->
     gadd (gadd (gadd (toG (fst msg)) (gadd (c0 sb) (gO0 sope)))
                (gmul (gadd (toG (snd msg)) (gadd (c1 sb) (gO1 sope))) (toG d)))
          (gmul (toG (range_error seed (map snd sb))) (gmul (toG d) (toG d))) = g0).
  Proof.
    intros Hv Hm. assert (Hl : length vb = length sb).
    { apply (f_equal (@length GF)) in Hv. now rewrite !map_length in Hv. }
    assert (E : toG (N.lxor (N.lxor (gf_inn_prdt (firstn (length vb) (pp_chi seed (length vb))) vb)
                  (packing (map (ot_key d) ope))) (gfmul (snd msg) d)) =
       gadd (gadd (gadd (c0 sb) (gO0 sope)) (gmul (gadd (toG (snd msg)) (gadd (c1 sb) (gO1 sope))) (toG d)))
          (gmul (toG (range_error seed (map snd sb))) (gmul (toG d) (toG d)))).
    { rewrite !toG_lxor, toG_gfmul, toG_inn, chi_toG, Hv, Hl, ope_pack.
      rewrite (gdot_lin3 (bcoef (length sb)) poly (fun s => toG (fst (fst s))) (fun s => toG (snd (fst s)))
                 (fun s => b2g (snd s)) (toG d)) by reflexivity.
      rewrite range_error_ok, map_map, map_length. fold (bcoef (length sb)). fold (c0 sb) (c1 sb). ring. }
    unfold ver_check_sum. rewrite N.eqb_eq. split.
    - intro H. apply (f_equal toG) in H. rewrite E in H. rewrite H. ring.
    - intro H. apply toG_inj; [easy|apply lxor_lt; [apply lxor_lt; apply inn_lt|apply gfmul_lt]|].
      rewrite E. match type of H with ?L = _ =>
        transitivity (gadd (toG (fst msg)) L); [rewrite H; ring|ring] end.
  Qed.
  Lemma prv_msg_ok sb : length ope = 128 ->
    toG (fst (prv_check_sum (map fst sb) seed ope)) = gadd (c0 sb) (gO0 sope) /\
    toG (snd (prv_check_sum (map fst sb) seed ope)) = gadd (c1 sb) (gO1 sope) /\
    (fst (prv_check_sum (map fst sb) seed ope) < 2 ^ 128)%N.
  Proof.
    intro Ho. unfold prv_check_sum. cbn [fst snd]. rewrite !toG_lxor, !toG_inn, !map_length, chi_toG, ch_bits_ok by easy.
    unfold packing. rewrite toG_inn, !map_map. fold gB.
    split; [unfold c0, gO0, sope; now rewrite map_map|].
    split; [unfold c1, gO1, sope; now rewrite map_map|].
    apply lxor_lt; apply inn_lt.
  Qed.
End Batch.

Lemma flat_map_map {A B C} (f : B -> list C) (g : A -> B) l : flat_map f (map g l) = flat_map (fun a => f (g a)) l.
Proof. induction l as [|x l IH]; cbn; [easy|now rewrite IH]. Qed.
Lemma map_flat_map {A B C} (f : B -> C) (g : A -> list B) l : map f (flat_map g l) = flat_map (fun a => map f (g a)) l.
Proof. induction l as [|x l IH]; cbn; [easy|]. now rewrite map_app, IH. Qed.
Lemma flat_map_ext' {A B} (f g : A -> list B) l : (forall a, In a l -> f a = g a) -> flat_map f l = flat_map g l.
Proof. induction l as [|x l IH]; intro H; cbn; [easy|]. rewrite H, IH; auto; [intros; apply H; now right|now left]. Qed.
Section Sess.
  Variables (bs : nat) (seeds : nat -> N) (ope : nat -> list N) (cs : list (bcall (N * bool))).
  Definition sh_all : list (N * N * bool) := flat_map sh_items cs.
  Definition errs_all : list bool := flat_map (fun c => defects (bcall_map snd c)) cs.
  Lemma errs_sh : map snd sh_all = errs_all.
  Proof. unfold sh_all, errs_all. rewrite map_flat_map. apply flat_map_ext'. intros. apply sh_items_def. Qed.
  Lemma ver_sh d : map toG (flat_map (ver_items d) (map (bcall_map (akey d)) cs)) = map (poly d) sh_all.
  Proof.
    rewrite flat_map_map. unfold sh_all. rewrite !map_flat_map. apply flat_map_ext'. intros. apply sh_items_ver.
  Qed.
  Lemma prv_sh : Forall (fun c => Forall honest_wire (wires_of c)) cs ->
    flat_map prv_items (map (bcall_map fst) cs) = map fst sh_all.
  Proof.
    intro H. rewrite flat_map_map. unfold sh_all. rewrite map_flat_map. apply flat_map_ext'. intros a Ha.
    rewrite Forall_forall in H. now apply sh_items_prv, H.
  Qed.
  Lemma nth_chunks_map {A B} (f : A -> B) n l k : nth_error (chunks n (map f l)) k = option_map (map f) (nth_error (chunks n l) k).
  Proof. rewrite chunks_map. apply nth_error_map. Qed.
  (** chunk k of the shadow items and of the verifier's items *)
  Lemma chunk_ver d k vb : nth_error (chunks bs (flat_map (ver_items d) (map (bcall_map (akey d)) cs))) k = Some vb ->
    exists sb, nth_error (chunks bs sh_all) k = Some sb /\ map toG vb = map (poly d) sb.
  Proof.
    intro H. assert (X : nth_error (chunks bs (map (poly d) sh_all)) k = Some (map toG vb)).
    { rewrite <- ver_sh, nth_chunks_map, H. reflexivity. }
    rewrite nth_chunks_map in X. destruct (nth_error (chunks bs sh_all) k) as [sb|]; [|discriminate].
    cbn in X. injection X as X. exists sb. auto.
  Qed.
  Lemma chunk_ver' d k sb : nth_error (chunks bs sh_all) k = Some sb ->
    exists vb, nth_error (chunks bs (flat_map (ver_items d) (map (bcall_map (akey d)) cs))) k = Some vb /\ map toG vb = map (poly d) sb.
  Proof.
    intro H. assert (X : nth_error (chunks bs (map (poly d) sh_all)) k = Some (map (poly d) sb)).
    { rewrite nth_chunks_map, H. reflexivity. }
    rewrite <- ver_sh, nth_chunks_map in X.
    destruct (nth_error (chunks bs (flat_map (ver_items d) (map (bcall_map (akey d)) cs))) k) as [vb|]; [|discriminate].
    cbn in X. injection X as X. exists vb. auto.
  Qed.
  Definition vexec (d : N) (msg : nat -> N * N) : pvst :=
    pv_exec bs seeds d (fun k => map (ot_key d) (ope k)) msg (map (bcall_map (akey d)) cs).
  Lemma vexec_ok d msg : 1 <= bs -> (forall k, (fst (msg k) < 2 ^ 128)%N) ->
    (pv_cheat (vexec d msg) = [] <->
     forall k sb, nth_error (chunks bs sh_all) k = Some sb ->
       gadd (gadd (gadd (toG (fst (msg k))) (gadd (c0 (seeds k) sb) (gO0 (sope (ope k)))))
                  (gmul (gadd (toG (snd (msg k))) (gadd (c1 (seeds k) sb) (gO1 (sope (ope k))))) (toG d)))
            (gmul (toG (range_error (seeds k) (map snd sb))) (gmul (toG d) (toG d))) = g0).
  Proof.
    intros Hb Hm. unfold vexec. rewrite pv_cheat_nil by easy. split.
    - intros H k sb Hk. destruct (chunk_ver' d k sb Hk) as (vb & Hv & E).
      specialize (H k vb Hv). unfold vacc in H. eapply accept_iff in H; eauto.
    - intros H k vb Hk. destruct (chunk_ver d k vb Hk) as (sb & Hs & E).
      unfold vacc. eapply accept_iff; eauto.
  Qed.

  Theorem poly_complete d : 1 <= bs -> (forall k, length (ope k) = 128) ->
    Forall (fun c => Forall honest_wire (wires_of c)) cs -> Forall (fun e => e = false) errs_all ->
    pv_cheat (vexec d (fun k => nth k (pp_msgs (pp_exec bs seeds ope (map (bcall_map fst) cs))) (0, 0)%N)) = [].
  Proof.
    intros Hb Ho Hw He.
    assert (M : forall k sb, nth_error (chunks bs sh_all) k = Some sb ->
      nth k (pp_msgs (pp_exec bs seeds ope (map (bcall_map fst) cs))) (0, 0)%N = prv_check_sum (map fst sb) (seeds k) (ope k)).
    { intros k sb Hk. rewrite pp_msgs_chunks, prv_sh by easy. apply nth_error_nth.
      apply (imap_nth (fun k b => prv_check_sum b (seeds k) (ope k))).
      rewrite nth_chunks_map, Hk. reflexivity. }
    apply vexec_ok; [easy| |].
    - intro k. rewrite pp_msgs_chunks, prv_sh by easy.
      destruct (nth_in_or_default k (imap (fun k b => prv_check_sum b (seeds k) (ope k)) (chunks bs (map fst sh_all))) (0,0)%N)
        as [Hi|E]; [|rewrite E; reflexivity].
      apply In_nth_error in Hi. destruct Hi as [j Hj]. apply imap_nth_inv in Hj. destruct Hj as (b & _ & ->).
      unfold prv_check_sum. cbn [fst]. apply lxor_lt; apply inn_lt.
    - intros k sb Hk. rewrite (M k sb Hk).
      destruct (prv_msg_ok (seeds k) (ope k) sb (Ho k)) as (E0 & E1 & _). rewrite E0, E1.
      assert (Z : Forall (fun e => e = false) (map snd sb)).
      { assert (X : nth_error (chunks bs errs_all) k = Some (map snd sb)).
        { rewrite <- errs_sh, nth_chunks_map, Hk. reflexivity. }
        apply nth_error_In in X. rewrite Forall_forall in He |- *. intros e Hin. apply He.
        revert X Hin. generalize (map snd sb) as b. intro b. unfold chunks. generalize (length errs_all) as f. generalize errs_all as l.
        clear. intros l f. revert l. induction f as [|f IH]; intros [|y l] X Hin; cbn [chunk_fuel In] in X; try easy.
        - destruct X as [<-|[]]. exact Hin.
        - destruct X as [<-|X]; [eapply In_firstn'; eauto|].
          eapply In_skipn'. eapply IH; eauto. }
      rewrite range_error_ok, gdot_zero by (apply Forall_map; eapply Forall_impl; [|exact Z]; now intros e ->).
      ring.
  Qed.

  Theorem poly_batch_bound msg deltas k errs : 1 <= bs -> NoDup deltas -> (forall d, In d deltas -> (d < 2 ^ 128)%N) ->
    (forall k, (fst (msg k) < 2 ^ 128)%N) ->
    nth_error (chunks bs errs_all) k = Some errs -> range_error (seeds k) errs <> 0%N ->
    (forall d, In d deltas -> pv_cheat (vexec d msg) = []) -> length deltas <= 2.
  Proof.
    intros Hb Hnd Hd Hm Hk Hr Ha. rewrite <- errs_sh, nth_chunks_map in Hk.
    destruct (nth_error (chunks bs sh_all) k) as [sb|] eqn:Es; [|discriminate]. cbn in Hk. injection Hk as <-.
    assert (Hlt : Forall (fun d => (d < 2 ^ 128)%N) deltas) by now apply Forall_forall.
    rewrite <- (map_length toG). 
    eapply GF_quad; [|now apply In_map_toG_inj|].
    2:{ intros x Hx. apply in_map_iff in Hx. destruct Hx as (d & <- & Hin).
        pose proof (proj1 (vexec_ok d msg Hb Hm) (Ha d Hin) k sb Es) as X. exact X. }
    intro Z. apply Hr. apply toG_inj; [|lia|exact Z].
    pose proof (combined_lt [(0, length (map snd sb))] (fun _ => seeds k) (map snd sb)) as L.
    unfold combined_error in L. cbn [length seq combine map fst snd skipn fold_right] in L.
    now rewrite firstn_all, N.lxor_0_r in L.
  Qed.
  Theorem poly_vanishing : 1 <= bs -> 
    (forall k errs, nth_error (chunks bs errs_all) k = Some errs -> range_error (seeds k) errs = 0%N) ->
    exists msg, forall d, pv_cheat (vexec d msg) = [].
  Proof.
    intros Hb H.
    exists (fun k => match nth_error (chunks bs sh_all) k with
                     | Some sb => (gv (gadd (c0 (seeds k) sb) (gO0 (sope (ope k)))), gv (gadd (c1 (seeds k) sb) (gO1 (sope (ope k)))))
                     | None => (0, 0)%N end).
    intro d. apply vexec_ok; [easy| |].
    - intro k. destruct (nth_error (chunks bs sh_all) k); [apply gv_lt|reflexivity].
    - intros k sb Hk. rewrite Hk. cbn [fst snd]. rewrite !toG_gv.
      rewrite (H k (map snd sb)), toG_0; [ring|]. rewrite <- errs_sh, nth_chunks_map, Hk. reflexivity.
  Qed.
End Sess.
