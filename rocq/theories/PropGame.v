(** Property C50: how many of the verifier's random choices let a dishonest prover cheat. *)
From Coq Require Import NArith List Bool Arith Lia.
From Verif Require Import BoolModel BoolSpec ArithModel ArithSpec AHideSpec GameSpec GameArithSpec CountAlg GameBool GameArith2 GameSpread.
Import ListNotations.

(** The boolean engine.  The verifier draws a key from [deltas] and, for each of the [B] checks, [t] seeds from [xs]; the prover's
    bits may depend on every seed it has seen, its replies and digest on all of them.  Unless two runs of the game are a collision of
    the hash, at most 2 q^(tB) + n q^(tB-1) |deltas| of the q^(tB) |deltas| choices let it cheat: a fraction 2/|deltas| + n/q. *)
Theorem C50_bool_cheating_choices : forall r0 r1 pM t csz c (D : Type) (Deqb : D -> D -> bool) (H : list N -> D) bit reply digest
    (xs deltas : list N),
  1 <= t -> 1 <= csz -> all_covered t csz (count_and c) ->
  NoDup xs -> Forall (fun x => (x < 2 ^ 128)%N) xs -> NoDup deltas -> Forall valid_delta deltas ->
  (forall a b, Deqb a b = true -> a = b) ->
  let n := count_and c in let B := num_checks csz n in let q := length xs in
  let space := list_prod (tuples B (tuples t xs)) deltas in
  length space = q ^ (t * B) * length deltas /\
  ((exists s d1 d2 v1 v2, In s (tuples B (tuples t xs)) /\ In d1 deltas /\ In d2 deltas /\
      game_exec r0 r1 pM t csz c bit reply s d1 = Some v1 /\ game_exec r0 r1 pM t csz c bit reply s d2 = Some v2 /\
      v_hash v1 <> v_hash v2 /\ H (v_hash v1) = H (v_hash v2)) \/
   cnt (fun x => cheats r0 r1 pM t csz c D Deqb H bit reply digest (fst x) (snd x)) space
     <= 2 * q ^ (t * B) + n * q ^ (t * B - 1) * length deltas).
Proof.
  intros r0 r1 pM t csz c D Deqb H bit reply digest xs deltas Ht Hc Hcov Hnd Hlt Nd Vd Hd. cbv zeta. split.
  - rewrite prod_length, !tuples_len. now rewrite Nat.pow_mul_r.
  - destruct (count_cheats r0 r1 pM t csz c D Deqb H bit reply digest xs Ht Hc Hcov Hnd Hlt deltas Hd Nd Vd) as [(s & Hs & d1 & d2 & v1 & v2 & X)|X].
    + left. exists s, d1, d2, v1, v2. split; [exact Hs|exact X].
    + right. exact X.
Qed.

(** A prover that claims 1 AND 1 = 0, and makes its second gate depend on the first seed: it wins exactly when the first seed is 0. *)
Definition demo_c := [GIn true; GIn true; GIn false; GAnd 0 1; GAnd 2 2; GReveal 3; GReveal 4].
Definition demo_bit (s : list (list N)) (i : nat) : bool :=
  match i with 0 | 1 => true | 2 | 3 | 5 => false | _ => match s with [x] :: _ => negb (N.eqb x 0) | _ => false end end.
Definition leq (a b : list N) : bool := if list_eq_dec N.eq_dec a b then true else false.
Definition demo_cheats := cheats 11 12 (fun _ => 0%N) 1 1 demo_c (list N) leq (fun l => l) demo_bit (fun _ _ => (0, 0)%N) (fun _ => [0; 0]%N).
Example C50_bool_example :
  all_covered 1 1 (count_and demo_c) /\ count_and demo_c = 2 /\ num_checks 1 2 = 2 /\ seen 1 0 demo_c = [0; 0; 0; 0; 1; 1; 1] /\
  cnt (fun x => demo_cheats (fst x) (snd x)) (list_prod (tuples 2 (tuples 1 [0; 1; 2]%N)) [1; 3; 5; 7; 9]%N) = 15 /\
  15 <= 2 * 3 ^ (1 * 2) + 2 * 3 ^ (1 * 2 - 1) * 5 /\ demo_cheats [[0]; [2]]%N 5 = true /\ demo_cheats [[1]; [0]]%N 5 = false.
Proof. split; [vm_compute; split; intros; lia|]. vm_compute. repeat split; lia. Qed.

(** The arithmetic engine.  The verifier draws a key below p from [deltas], one block per worker from [X] for each of the [Bm] checks of
    multiplications, and one word from [Y] for each of the [Br] checks of relations; a residue modulo p is the challenge of at most [mx]
    elements of X and [my] of Y.  A fraction 4/|deltas| + n mx/|X| + m my/|Y| of the choices at most lets the prover cheat. *)
Theorem C50_arith_cheating_choices : forall pub_mac pU pMac t csz psz c (D : Type) (Deqb : D -> D -> bool) (H : list N -> D)
    word reply preply digest (X Y deltas : list N) mx my,
  1 <= t -> 1 <= csz -> 1 <= psz -> a_all_covered t csz (acount_mul c) ->
  spread block_chal mx X -> spread word_chal my Y -> Forall (fun y => (y < 2 ^ 64)%N) Y ->
  NoDup deltas -> Forall (fun d => (d < prm)%N) deltas -> (pub_mac < prm)%N -> Forall wf_pub c ->
  (forall s r, words_ok (play_words csz psz c word s r) 0 c) ->
  (forall s r k, (snd (reply s r k) < 2 ^ 64)%N /\ (snd (preply s r k) < 2 ^ 64)%N) ->
  (forall a b, Deqb a b = true -> a = b) ->
  let n := acount_mul c in let m := acount_rel c in let Bm := num_checks csz n in let Br := num_checks psz m in
  let SS := tuples Bm (tuples t X) in let RR := tuples Br Y in
  let space := list_prod (list_prod SS RR) deltas in
  length space = length X ^ (t * Bm) * length Y ^ Br * length deltas /\
  ((exists s r d1 d2 v1 v2, In s SS /\ In r RR /\ In d1 deltas /\ In d2 deltas /\
      agame_exec pub_mac pU pMac t csz psz c word reply preply s r d1 = Some v1 /\
      agame_exec pub_mac pU pMac t csz psz c word reply preply s r d2 = Some v2 /\
      av_hash v1 <> av_hash v2 /\ H (av_hash v1) = H (av_hash v2)) \/
   cnt (fun x => acheats pub_mac pU pMac t csz psz c D Deqb H word reply preply digest (fst (fst x)) (snd (fst x)) (snd x)) space
     <= 4 * (length X ^ (t * Bm) * length Y ^ Br) +
        (n * mx * length X ^ (t * Bm - 1) * length Y ^ Br + m * my * length X ^ (t * Bm) * length Y ^ (Br - 1)) * length deltas).
Proof.
  intros pub_mac pU pMac t csz psz c D Deqb H word reply preply digest X Y deltas mx my Ht Hc Hp Hcov SX SY HY Nd Ld Hpm Hwf Hw Hr Hd. cbv zeta. split.
  - rewrite !prod_length, !tuples_len. now rewrite Nat.pow_mul_r.
  - destruct (count_acheats pub_mac pU pMac t csz psz c D Deqb H word reply preply digest X Y deltas mx my 4 false Ht Hc Hp Hcov SX SY HY Hd Nd Ld
                Hpm Hwf Hw eq_refl Hr) as [(s & r & Hs & Hrr & d1 & d2 & v1 & v2 & I)|I].
    + left. exists s, r, d1, d2, v1, v2. split; [exact Hs|]. split; [exact Hrr|exact I].
    + right. exact I.
Qed.
(** 2/|deltas| instead of 4/|deltas| when the second word of every reply is below 2^63 *)
Theorem C50_arith_cheating_choices_two : forall pub_mac pU pMac t csz psz c (D : Type) (Deqb : D -> D -> bool) (H : list N -> D)
    word reply preply digest (X Y deltas : list N) mx my,
  1 <= t -> 1 <= csz -> 1 <= psz -> a_all_covered t csz (acount_mul c) ->
  spread block_chal mx X -> spread word_chal my Y -> Forall (fun y => (y < 2 ^ 64)%N) Y ->
  NoDup deltas -> Forall (fun d => (d < prm)%N) deltas -> (pub_mac < prm)%N -> Forall wf_pub c ->
  (forall s r, words_ok (play_words csz psz c word s r) 0 c) ->
  (forall s r k, (snd (reply s r k) < 2 ^ 63)%N /\ (snd (preply s r k) < 2 ^ 63)%N) ->
  (forall a b, Deqb a b = true -> a = b) ->
  let n := acount_mul c in let m := acount_rel c in let Bm := num_checks csz n in let Br := num_checks psz m in
  let SS := tuples Bm (tuples t X) in let RR := tuples Br Y in
  (exists s r d1 d2 v1 v2, In s SS /\ In r RR /\ In d1 deltas /\ In d2 deltas /\
      agame_exec pub_mac pU pMac t csz psz c word reply preply s r d1 = Some v1 /\
      agame_exec pub_mac pU pMac t csz psz c word reply preply s r d2 = Some v2 /\
      av_hash v1 <> av_hash v2 /\ H (av_hash v1) = H (av_hash v2)) \/
  cnt (fun x => acheats pub_mac pU pMac t csz psz c D Deqb H word reply preply digest (fst (fst x)) (snd (fst x)) (snd x))
      (list_prod (list_prod SS RR) deltas)
     <= 2 * (length X ^ (t * Bm) * length Y ^ Br) +
        (n * mx * length X ^ (t * Bm - 1) * length Y ^ Br + m * my * length X ^ (t * Bm) * length Y ^ (Br - 1)) * length deltas.
Proof.
  intros pub_mac pU pMac t csz psz c D Deqb H word reply preply digest X Y deltas mx my Ht Hc Hp Hcov SX SY HY Nd Ld Hpm Hwf Hw Hr Hd. cbv zeta.
  destruct (count_acheats pub_mac pU pMac t csz psz c D Deqb H word reply preply digest X Y deltas mx my 2 true Ht Hc Hp Hcov SX SY HY Hd Nd Ld
              Hpm Hwf Hw eq_refl Hr) as [(s & r & Hs & Hrr & d1 & d2 & v1 & v2 & I)|I].
  - left. exists s, r, d1, d2, v1, v2. split; [exact Hs|]. split; [exact Hrr|exact I].
  - right. exact I.
Qed.

(** Seeds as the code draws them: a residue is hit by at most 9 of the 2^64 words, and by at most 9 low halves of a block. *)
Theorem C50_word_challenges_spread : forall l, NoDup l -> Forall (fun x => (x < 2 ^ 64)%N) l -> spread word_chal 9 l.
Proof. exact words_spread. Qed.
Theorem C50_block_challenges_spread : forall his los, NoDup los -> Forall (fun x => (x < 2 ^ 64)%N) los ->
  spread block_chal (length his * 9) (map (fun p => fst p * 2 ^ 64 + snd p)%N (list_prod his los)).
Proof. exact blocks_spread. Qed.
Example C50_spread_example :
  spread word_chal 9 [0; prm; 2 * prm; 3 * prm; 4 * prm; 5 * prm; 6 * prm; 7 * prm; 8 * prm; 1]%N /\
  cnt (fun x => N.eqb (word_chal x) 0) [0; prm; 2 * prm; 3 * prm; 4 * prm; 5 * prm; 6 * prm; 7 * prm; 8 * prm; 1]%N = 9.
Proof.
  split; [|vm_compute; reflexivity]. apply C50_word_challenges_spread.
  - repeat constructor; cbn [In]; intros E; repeat (destruct E as [E|E]; [discriminate|]); exact E.
  - repeat constructor; reflexivity.
Qed.

(** A prover that claims 1 * 1 = 0 and chooses its second product after seeing the first challenge; the relation is then true. *)
Definition demo_ac := [AIn 1; AIn 1; AMul 0 1; AMul 0 1; AInner [3] [3] (prm - 1); AReveal 2].
Definition demo_word (s : list (list N)) (r : list N) (i : nat) : N :=
  match i with 0 | 1 => prm - 1 | 3 => match s with [x] :: _ => if N.eqb x 0 then prm - 1 else 0 | _ => 0 end | _ => 0 end.
Definition demo_acheats := acheats 5 (fun _ => 0%N) (fun _ => 0%N) 1 1 1 demo_ac (list N) leq (fun l => l) demo_word
  (fun _ _ _ => (0, 0)%N) (fun _ _ _ => (0, 0)%N) (fun _ _ => [0]%N).
Example C50_arith_example :
  a_all_covered 1 1 (acount_mul demo_ac) /\ Forall wf_pub demo_ac /\ acount_mul demo_ac = 2 /\ acount_rel demo_ac = 1 /\
  (forall s r, words_ok (play_words 1 1 demo_ac demo_word s r) 0 demo_ac) /\
  cnt (fun x => demo_acheats (fst (fst x)) (snd (fst x)) (snd x))
    (list_prod (list_prod (tuples 2 (tuples 1 [0; 1; 2]%N)) (tuples 1 [0; 1; 2]%N)) [1; 2; 3; 4; 5; 6]%N) = 54 /\
  demo_acheats [[0]; [2]]%N [1]%N 5 = true /\ demo_acheats [[1]; [0]]%N [0]%N 5 = false.
Proof.
  split; [split; intros _; left; cbn; lia|]. split; [repeat constructor; cbn; unfold canon; reflexivity|].
  split; [reflexivity|]. split; [reflexivity|]. split; [|vm_compute; repeat split].
  intros s r.
  assert (W : forall i, (i <= 3 -> (play_words 1 1 demo_ac demo_word s r i <= prm)%N) /\ play_words 1 1 demo_ac demo_word s r 4 = 0%N).
  { intros i. split; [|reflexivity]. intros Hi. unfold play_words. generalize (firstn (fst (nth i (aseen 1 1 0 0 demo_ac) (0, 0))) s).
    generalize (firstn (snd (nth i (aseen 1 1 0 0 demo_ac) (0, 0))) r). intros r' s'.
    destruct i as [|[|[|[|i]]]]; [discriminate|discriminate|discriminate| |lia]. cbn [demo_word].
    destruct s' as [|[|x [|y l]] s']; try discriminate. destruct (N.eqb x 0); discriminate. }
  split; [apply (W 0); lia|]. split; [apply (W 1); lia|]. split; [apply (W 2); lia|]. split; [apply (W 3); lia|].
  split; [|exact I]. destruct (W 4) as [_ ->]. reflexivity.
Qed.

Print Assumptions C50_bool_cheating_choices.
Print Assumptions C50_arith_cheating_choices.
Print Assumptions C50_arith_cheating_choices_two.
Print Assumptions C50_word_challenges_spread.
Print Assumptions C50_block_challenges_spread.
