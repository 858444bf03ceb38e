(** Whole sessions of the conversion engine against a prover that chooses its masks, words and hash input freely, after
    every offset it has seen.  Labels and shares are authenticated (C05, C09). *)
From Coq Require Import NArith List Arith.
From Verif Require Import Word FpModel ArithSpec CopeProofs EdaModel EdaSpec EdaCutSpec.
Import ListNotations.

(** candidates of a generation: shares, labels, boolean words; the verifier's keys under every global key *)
Record gcand := { c_ap : nat -> N; c_bl : nat -> list N; c_w : nat -> N; c_ak : N -> nat -> N; c_bk : N -> nat -> list N }.
(** a conversion through mask [i] and the word [v] the prover sends: of the boolean value [x], with labels and keys of the
    masked difference; or of the share [a] with its key *)
Inductive cdata :=
| CvB (i : nat) (x : N) (lab : list N) (key : N -> list N) (v : N)
| CvA (i : nat) (a : N) (key : N -> N) (v : N).
(** what follows the offset: labels and keys of the bucket sums, words of the opening and of the buckets, conversions *)
Record gtalk := { t_sl : nat -> list N; t_sk : N -> nat -> list N; t_vo : list N; t_vb : list N; t_conv : list cdata }.

Section Sess.
  Variables (NN C : nat).
  Definition cand_auth (g : gcand) : Prop :=
    (forall i, i < 2 * NN + C -> (c_w g i < prm)%N) /\
    (forall d i, (d < prm)%N -> i < 2 * NN + C -> share_ok d (c_ap g i) (c_ak g d i)) /\
    (forall d i, i < 2 * NN + C -> bauth d (c_bl g i) (c_bk g d i) (c_w g i)).
  Definition conv_auth (g : gcand) (c : cdata) : Prop :=
    match c with
    | CvB i x lab key v => i < NN /\ (x < prm)%N /\ (v <= prm)%N /\ forall d, bauth d lab (key d) (b2a_diff x (c_w g i))
    | CvA i a key v => i < NN /\ (v <= prm)%N /\ forall d, (d < prm)%N -> share_ok d a (key d)
    end.
  Definition talk_auth (g : gcand) (r : nat) (t : gtalk) : Prop :=
    (forall d i, i < NN -> bauth d (t_sl t i) (t_sk t d i) (bucket_f2 (c_w g i) (c_w g (mate NN C r i)))) /\
    length (t_vo t) = C /\ length (t_vb t) = NN /\ Forall (fun v => (v <= prm)%N) (t_vo t ++ t_vb t) /\
    Forall (conv_auth g) (t_conv t).
  (** a strategy: candidates from the offsets of earlier generations, the rest after the offset *)
  Record strat := { s_cand : list nat -> gcand; s_talk : list nat -> nat -> gtalk }.
  Definition strat_auth (st : strat) : Prop :=
    (forall past, cand_auth (s_cand st past)) /\ (forall past r, r <= NN -> talk_auth (s_cand st past) r (s_talk st past r)).

  (** hash input of the verifier (edabits.h:82-292, auth_helper.h:38-75, 106-132) *)
  Definition conv_hash (g : gcand) (d2 df : N) (c : cdata) : list hitem :=
    match c with
    | CvB i x lab key v => op_recv_f2 d2 (key d2) v
    | CvA i a key v => a2b_recv df (c_ak g df i) (key df) v
    end.
  Definition gen_hash (g : gcand) (r : nat) (t : gtalk) (d2 df : N) : list hitem :=
    gen_ver NN C (c_ak g df) (c_bk g d2) (t_sk t d2) d2 df r [t_vo t; t_vb t] ++ flat_map (conv_hash g d2 df) (t_conv t).
  Fixpoint sess_hash (st : strat) (past rs : list nat) (d2 df : N) : list hitem :=
    match rs with
    | [] => []
    | r :: rs' => gen_hash (s_cand st past) r (s_talk st past r) d2 df ++ sess_hash st (past ++ [r]) rs' d2 df
    end.

  (** the result is the converted value: the verifier's key belongs to a share of x; the boolean result is the value *)
  Definition right (g : gcand) (c : cdata) : Prop :=
    match c with
    | CvB i x lab key v => exists a, hi64 a = x /\ forall d, (d < prm)%N -> share_ok d a (b2a_ver d (c_ak g d i) v)
    | CvA i a key v => (a2b_out v (c_w g i) mod prm = hi64 a)%N
    end.
  Definition rightb (g : gcand) (c : cdata) : bool :=
    match c with
    | CvB i x lab key v => N.eqb ((hi64 (c_ap g i) + v) mod prm) x
    | CvA i a key v => N.eqb (a2b_out v (c_w g i) mod prm) (hi64 a)
    end.
  Fixpoint all_right (st : strat) (past rs : list nat) : bool :=
    match rs with
    | [] => true
    | r :: rs' => forallb (rightb (s_cand st past)) (t_conv (s_talk st past r)) && all_right st (past ++ [r]) rs'
    end%bool.
  (** every delivered mask has equal halves; no run sees a disagreement *)
  Fixpoint masks_good (st : strat) (past rs : list nat) : Prop :=
    match rs with
    | [] => True
    | r :: rs' => (forall i, i < NN -> c_w (s_cand st past) i = hi64 (c_ap (s_cand st past) i)) /\ masks_good st (past ++ [r]) rs'
    end.
  Fixpoint all_survive (st : strat) (past rs : list nat) : Prop :=
    match rs with
    | [] => True
    | r :: rs' => survives NN C (c_w (s_cand st past)) (fun i => hi64 (c_ap (s_cand st past) i)) r /\ all_survive st (past ++ [r]) rs'
    end.
  (** the honest prover: equal halves everywhere, the words of the code, and its own hash input *)
  Definition honest_conv (g : gcand) (c : cdata) : Prop :=
    match c with
    | CvB i x lab key v => v = fst (b2a_prv x (c_w g i) (c_ap g i))
    | CvA i a key v => v = fst (a2b_open (c_ap g i) a)
    end.
  Definition honest_gen (g : gcand) (r : nat) (t : gtalk) : Prop :=
    (forall i, i < 2 * NN + C -> c_w g i = hi64 (c_ap g i)) /\
    fst (gen_prv NN C (c_ap g) (c_bl g) (t_sl t) r) = [t_vo t; t_vb t] /\ Forall (honest_conv g) (t_conv t).
  Definition conv_prv (g : gcand) (c : cdata) : list hitem :=
    match c with CvB i x lab key v => op_send_f2 lab | CvA i a key v => snd (a2b_open (c_ap g i) a) end.
  Fixpoint sess_prv (st : strat) (past rs : list nat) : list hitem :=
    match rs with
    | [] => []
    | r :: rs' => let g := s_cand st past in let t := s_talk st past r in
        (snd (gen_prv NN C (c_ap g) (c_bl g) (t_sl t) r) ++ flat_map (conv_prv g) (t_conv t)) ++ sess_prv st (past ++ [r]) rs'
    end.
  Fixpoint honest_sess (st : strat) (past rs : list nat) : Prop :=
    match rs with
    | [] => True
    | r :: rs' => honest_gen (s_cand st past) r (s_talk st past r) /\ honest_sess st (past ++ [r]) rs'
    end.
  (** no bucket sum is exactly p (C29: the honest check fails otherwise) *)
  Fixpoint no_sum_p (st : strat) (past rs : list nat) : Prop :=
    match rs with
    | [] => True
    | r :: rs' => (forall i, i < NN -> (hi64 (c_ap (s_cand st past) i) + hi64 (c_ap (s_cand st past) (mate NN C r i)) <> prm)%N) /\
                  no_sum_p st (past ++ [r]) rs'
    end.
End Sess.
