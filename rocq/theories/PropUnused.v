(** C51: functions that the library defines and does not call itself. *)
From Coq Require Import NArith ZArith List Bool Arith Lia.
From Verif Require Import Word FpModel GF128 BoolModel BoolSpec F2kModel F2kSpec RamModel RamSpec ArithSpec TreeModel TreeSpec VoleModel VoleSpec VoleF2kSpec PoolModel
  UnusedModel UnusedSpec UnusedProd UnusedCheat UnusedTree UnusedSmall.
From Verif Require Import PropF2k.
Import ListNotations.
Local Open Scope nat_scope.

(** * Products *)
(** lists long enough: the circuit's accumulator is the product of all x_i + r, with [pairs] checked multiplications *)
Theorem C51_product_value : forall h acc_last n r ev, least h <= n -> (N.of_nat n < 2 ^ 64)%N -> (r < 2 ^ 128)%N -> (forall i, i < n -> (ev i < 2 ^ 128)%N) ->
  exists c a, helper_circuit h acc_last n r = Some (c, a) /\
    let ws := fplain ev 0 [] c in
    a < length ws /\ fval ws a = shifted_product r (map ev (seq 0 n)) /\ count_mul c = pairs h n.
Proof. exact helper_ok. Qed.
(** shorter lists: an element outside the list is read (empty list; one element for inn_prdt_bch3) *)
Theorem C51_product_short : forall h acc_last n r, n < least h -> helper_circuit h acc_last n r = None.
Proof. exact helper_small. Qed.
(** honest parties: the prover's accumulator is the product, the verifier prints nothing and holds the key of the prover's pair *)
Theorem C51_product_honest : forall h acc_last n r ext voleV voleM bM oM threads bufsz polysz seeds pseeds junkp junkv g1 g2 g3 g4 h1 h2 d,
  least h <= n -> (N.of_nat n < 2 ^ 64)%N -> (r < 2 ^ 128)%N -> (forall i, i < n -> (fst (ext i) < 2 ^ 128)%N) ->
  1 <= threads -> threads <= bufsz -> (forall r i, (junkv r i < 2 ^ 128)%N) -> valid_delta d ->
  (pairs h n = 0 \/ threads <= last_batch bufsz (pairs h n)) ->
  exists c a, helper_circuit h acc_last n r = Some (c, a) /\
  let p := fp_exec ext voleV voleM bM oM threads bufsz polysz seeds pseeds junkp g1 g2 g3 g4 c in
  fst (nth a (fp_w p) (0, 0)%N) = shifted_product r (map (fun i => fst (ext i)) (seq 0 n)) /\
  exists v, f_session ext voleV voleM bM oM threads bufsz polysz seeds pseeds junkv
       (fun i => nth i (fp_corr p) 0%N) (fun i => nth i (fp_bits p) false)
       (fun k => nth k (fp_msgs p) (0, 0)%N) (fun k => nth k (fp_pmsgs p) (0, 0, 0, 0, 0)%N) h1 h2 c d = Some v /\
    fv_printed v = 0 /\ fv_cheat v = [] /\ nth a (fv_w v) 0%N = key_of d (nth a (fp_w p) (0, 0)%N).
Proof.
  intros h acc_last n r ext voleV voleM bM oM threads bufsz polysz seeds pseeds junkp junkv g1 g2 g3 g4 h1 h2 d Hn H64 Hr Hev Ht Hb Hj Hd Hp.
  destruct (helper_ok h acc_last n r (fun i => fst (ext i)) Hn H64 Hr Hev) as (c & a & E & La & Va & Cm). exists c, a. split; [exact E|].
  destruct (C31_honest_run ext voleV voleM bM oM threads bufsz polysz seeds pseeds junkp junkv g1 g2 g3 g4 h1 h2 c d Ht Hb Hj Hd) as [P (v & V & V1 & V2 & V3)];
    [rewrite Cm; exact Hp|]. cbv zeta in *.
  set (p := fp_exec ext voleV voleM bM oM threads bufsz polysz seeds pseeds junkp g1 g2 g3 g4 c) in *. clearbody p.
  assert (Lp : a < length (fp_w p)) by (rewrite <- P, map_length in La; exact La).
  split.
  - rewrite <- Va, <- P. unfold fval. symmetry. exact (map_nth fst (fp_w p) (0, 0)%N a).
  - exists v. split; [exact V|]. split; [exact V1|]. split; [exact V2|]. rewrite V3.
    rewrite (nth_indep _ 0%N (key_of d (0, 0)%N)) by (rewrite map_length; exact Lp). apply map_nth.
Qed.
(** a prover may claim any accumulator value of the two batched helpers when no multiplication is left over: messages
    chosen before the key pass for every key *)
Theorem C51_product_any_value_refuted : forall h acc_last n r c a ext voleV voleM bM oM threads bufsz polysz seeds pseeds junk corr w,
  h <> One -> 2 <= n -> (n - 1) mod batch h = 0 -> (N.of_nat n < 2 ^ 64)%N -> (w < 2 ^ 128)%N -> 1 <= threads -> 1 <= bufsz -> (forall r i, (junk r i < 2 ^ 128)%N) ->
  helper_circuit h acc_last n r = Some (c, a) ->
  exists bitmsg chkmsg polymsg, fval (fc_w (fcommit (fun i => fst (ext i)) voleV bM bufsz polysz corr bitmsg c)) a = w /\
    forall g1 g2 d, valid_delta d ->
    exists v, f_session ext voleV voleM bM oM threads bufsz polysz seeds pseeds junk corr bitmsg chkmsg polymsg g1 g2 c d = Some v /\
      fv_printed v = 0 /\ fv_cheat v = [].
Proof. exact helper_any. Qed.
Definition hdemo (h : helper) (n : nat) : option (list fgate * nat) := helper_circuit h true n 7.
(** five elements: lengths of the circuits, accumulator, product, checked multiplications; and a session with the honest prover *)
Example C51_product_case :
  map (fun h => match hdemo h 5 with
        | Some (c, a) => Some (length c, a, N.eqb (fval (fplain (fun i => fst (fdemo_ext i)) 0 [] c) a) (shifted_product 7 (map (fun i => fst (fdemo_ext i)) (seq 0 5))), pairs h 5,
            printed_and_len (fdemo_v 1 c (fun _ _ => (0, 0)%N)))
        | None => None end) [One; Bch2; Bch3] =
  [Some (14, 13, true, 4, Some (0, 14, 0)); Some (12, 11, true, 0, Some (0, 12, 0)); Some (12, 11, true, 1, Some (0, 12, 0))] /\
  hdemo Bch3 1 = None /\ hdemo One 0 = None /\ (5 - 1) mod batch Bch2 = 0 /\ (4 - 1) mod batch Bch3 = 0.
Proof. vm_compute. auto 10. Qed.

(** * Openings *)
(** check_MAC_valid accepts exactly the pairs related by the key *)
Theorem C51_opening_iff : forall d key x m, mac_valid d key (x, m) = true <-> share2 d x m key.
Proof. exact mac_valid_iff. Qed.
(** a pair with another value passes for at most one key *)
Theorem C51_opening_bound : forall d1 d2 x m x' m' k1 k2, (d1 < 2 ^ 128)%N -> (d2 < 2 ^ 128)%N -> (x < 2 ^ 128)%N -> (x' < 2 ^ 128)%N -> x <> x' ->
  share2 d1 x m k1 -> share2 d2 x m k2 -> mac_valid d1 k1 (x', m') = true -> mac_valid d2 k2 (x', m') = true -> d1 = d2.
Proof. exact one_key. Qed.
(** check_correctness of the GF(2^128) base generator: silent exactly when all received pairs fit, otherwise the first that does not *)
Theorem C51_base_check : forall d keys recv, length recv = length keys ->
  let fits j := share2 d (fst (nth j recv (0, 0)%N)) (snd (nth j recv (0, 0)%N)) (nth j keys 0%N) in
  (f2k_chk d 0 keys recv = None <-> forall j, j < length keys -> fits j) /\
  (forall j, f2k_chk d 0 keys recv = Some j -> j < length keys /\ ~ fits j /\ forall l, l < j -> fits l).
Proof.
  intros d keys recv Hl fits. split; [apply f2k_chk_none; exact Hl|]. intros j E. destruct (f2k_chk_some d keys 0 recv j Hl E) as (A & B & C).
  rewrite Nat.sub_0_r in B, C. split; [lia|]. auto.
Qed.
Example C51_opening_case :
  mac_valid 9 5 (3, N.lxor 5 (gfmul 3 9))%N = true /\ mac_valid 9 5 (4, N.lxor 5 (gfmul 3 9))%N = false /\
  mac_valid 9 (N.lxor 100 (gfmul 3 9)) (4, N.lxor 100 (gfmul 7 9))%N = true /\
  f2k_chk 9 0 [5; 6; 7; 8]%N [(3, N.lxor 5 (gfmul 3 9)); (4, N.lxor 6 (gfmul 4 9)); (4, 1); (1, 0)]%N = Some 2.
Proof. vm_compute. auto. Qed.

(** * The check of one tree *)
(** both sides have the same digest; the receiver accepts iff the two trees' power sums differ by the punctured term *)
Theorem C51_tree_check_iff : forall H depth d y z beta sum b (ts tr : nat -> N), (d < prm)%N -> share_ok d z y -> canon (xval beta) ->
  (forall j, j < 2 ^ (depth - 1) -> canon (ts j)) -> (forall j, j < 2 ^ (depth - 1) -> canon (tr j)) ->
  let e := ((H sum mod 2 ^ 64) mod prm)%N in
  one_recv H depth sum z beta b tr (one_V H depth sum d y ts (one_x H depth sum b z beta)) <> None <->
  (power_sum (2 ^ (depth - 1)) e tr mod prm =
   (power_sum (2 ^ (depth - 1)) e ts + e ^ (1 + N.of_nat (punctured (depth - 1) b)) * (xval beta * d)) mod prm)%N.
Proof.
  intros H depth d y z beta sum b ts tr Hd Hz Hb Hts Htr e. pose proof (accept_iff H depth d y z beta sum b ts tr Hd Hz Hb Hts Htr) as A.
  replace (one_digest H sum) with e in A; [exact A|]. symmetry. exact (digest1_eq H sum).
Qed.
(** honest trees (as in C19) pass, for every hash function, and leave correlations: the value part is x at the punctured position, 0 elsewhere *)
Theorem C51_tree_honest : forall H L R depth seed key mac d y z (b : nat -> bool) (t0s t0r : mem), 2 <= depth -> (d < prm)%N ->
  share_ok d mac key -> share_ok d z y ->
  let '(ts, m0, m1, sum) := sp_send L R depth seed key t0s in
  forall m : mem, (forall x, x < depth - 1 -> m x = if b x then m1 x else m0 x) ->
  let tr := sp_recv L R depth b m sum mac t0r in
  exists out, one_recv H depth sum z mac b tr (one_V H depth sum d y ts (one_x H depth sum b z mac)) = Some out /\
    forall j, j < 2 ^ (depth - 1) -> share_ok d (out j) (ts j) /\ xval (out j) = if j =? punctured (depth - 1) b then xval mac else 0%N.
Proof. exact one_tree_honest. Qed.
(** a tree wrong at some leaf is accepted for at most 2^(depth-1) values of the digest *)
Theorem C51_tree_check_bound : forall depth d y z beta sum b (ts tr : nat -> N) es j, (d < prm)%N -> share_ok d z y -> canon (xval beta) ->
  (forall j, j < 2 ^ (depth - 1) -> canon (ts j)) -> (forall j, j < 2 ^ (depth - 1) -> canon (tr j)) ->
  j < 2 ^ (depth - 1) -> tr j <> right_leaf depth d beta b ts j ->
  NoDup es -> (forall e, In e es -> canon e /\
     one_recv (fun _ => e) depth sum z beta b tr (one_V (fun _ => e) depth sum d y ts (one_x (fun _ => e) depth sum b z beta)) <> None) ->
  length es <= 2 ^ (depth - 1).
Proof. exact one_tree_few. Qed.
Definition tdemo_L (x : N) : N := (x * 3 + 1)%N.
Definition tdemo_R (x : N) : N := (x * 5 + 3)%N.
Definition tdemo_H (x : N) : N := (x * x + 12345678901234567)%N.
Example C51_tree_case : let d := 1000%N in let b := fun x => Nat.eqb x 1 in
  let key := 77%N in let mac := mkblock 5 5077 in let y := 31%N in let z := mkblock 4 4031 in
  share_ok d mac key /\ share_ok d z y /\
  let '(ts, m0, m1, sum) := sp_send tdemo_L tdemo_R 4 9 key (fun _ => 0%N) in
  let tr := sp_recv tdemo_L tdemo_R 4 b (fun x => if b x then m1 x else m0 x) sum mac (fun _ => 0%N) in
  let run := fun tr => one_recv tdemo_H 4 sum z mac b tr (one_V tdemo_H 4 sum d y ts (one_x tdemo_H 4 sum b z mac)) in
  option_map (fun o => map (fun j => (xval (o j), (o j mod 2 ^ 64)%N)) [4; 5; 6]) (run tr) = Some [(0, 436); (5, 5728); (0, 730)]%N /\
  option_map (fun _ => tt) (run (mset tr 3 719%N)) = None /\
  option_map (fun _ => tt) (one_recv (fun _ => 0%N) 4 sum z mac b (mset tr 3 719%N) (one_V (fun _ => 0%N) 4 sum d y ts (one_x (fun _ => 0%N) 4 sum b z mac))) = Some tt.
Proof. split; [vm_compute; auto|]. split; [vm_compute; auto|]. vm_compute. repeat split; reflexivity. Qed.

(** * The prover's own tests of a conversion *)
Theorem C51_own_tests : forall labels blk, length labels <= 64 ->
  (edabit_chk true labels blk = Some true <-> digits labels = xval blk) /\
  (edabit_chk true labels blk = Some true \/ edabit_chk true labels blk = Some false) /\
  (conversion_chk true labels blk = Some true <-> digits labels = xval blk /\ canon (xval blk)) /\
  (conversion_chk true labels blk = None <-> ~ (canon (digits labels) /\ canon (xval blk))).
Proof.
  intros labels blk Hl. destruct (edabit_chk_ok labels blk Hl) as [A B]. destruct (conversion_chk_ok labels blk Hl) as [C D]. auto.
Qed.
(** more than 64 bits: std::bitset throws; and the verifier accepts whatever it is given *)
Theorem C51_own_tests_limits : forall labels blk,
  (64 < length labels -> edabit_chk true labels blk = None /\ conversion_chk true labels blk = None) /\
  edabit_chk false labels blk = Some true /\ conversion_chk false labels blk = Some true.
Proof.
  intros labels blk. split; [|split; reflexivity]. intro Hl.
  assert (E : int_bits_value 0 labels = None) by (apply bits_value_long; [exact Hl|intros ->; cbn in Hl; lia]).
  unfold edabit_chk, conversion_chk. now rewrite E.
Qed.
Example C51_own_tests_case :
  edabit_chk true [3; 4; 5; 9]%N (mkblock 13 77) = Some true /\ edabit_chk true [3; 4; 5; 8]%N (mkblock 13 77) = Some false /\
  conversion_chk true (repeat 1%N 61) (mkblock prm 5) = None /\ conversion_chk true (0%N :: repeat 1%N 60) (mkblock (prm - 1) 5) = Some true.
Proof. vm_compute. auto. Qed.

(** * Bulk extension of the GF(2^128) generator *)
(** accepts exactly the lengths r*L+M, r >= 1: then r runs, their first L results in order, the last run's M reserved results behind
    them, nothing past the buffer *)
Theorem C51_bulk_extend : forall {A} (item : nat -> nat -> A) M L, 1 <= M -> M <= L -> forall space it data,
  (forall r, 1 <= r -> space = r * L + M -> exists d',
     bulk_extend item (L + M) M (Z.of_nat space) it data = Some (it + r, d', Z.of_nat (r * L)) /\
     (forall q j, q < r -> j < L -> d' (q * L + j) = item (it + q) j) /\
     (forall j, j < M -> d' (r * L + j) = item (it + r - 1) (L + j)) /\
     (forall i, space <= i -> d' i = data i)) /\
  ((forall r, 1 <= r -> space <> r * L + M) -> bulk_extend item (L + M) M (Z.of_nat space) it data = None).
Proof. intros A item M L HM HL space it data. exact (bulk_ok item M L HM HL space it data). Qed.
(** byte_memory_need_inplace: the smallest accepted length that yields the wanted number *)
Theorem C51_bulk_need : forall M L need, 1 <= M -> M <= L -> 1 <= need ->
  exists r, 1 <= r /\ bulk_need (L + M) M (Z.of_nat need) = Z.of_nat (r * L + M) /\ need <= r * L /\ (r - 1) * L < need.
Proof. intros M L need HM HL Hn. exact (bulk_need_ok (fun _ _ => tt) M L HM HL need Hn). Qed.
Example C51_bulk_case :
  bulk_need 10 3 15 = 24%Z /\
  option_map (fun '(it, d, z) => (it, z, map d (seq 0 25))) (bulk_extend (fun it p => 100 * it + p) 10 3 24 5 (fun i => 900 + i)) =
  Some (8, 21%Z, [500; 501; 502; 503; 504; 505; 506; 600; 601; 602; 603; 604; 605; 606; 700; 701; 702; 703; 704; 705; 706; 707; 708; 709; 924]) /\
  option_map (fun _ => tt) (bulk_extend (fun it p => 100 * it + p) 10 3 23 5 (fun i => 900 + i)) = None.
Proof. vm_compute. auto. Qed.

Print Assumptions C51_product_value.
Print Assumptions C51_product_short.
Print Assumptions C51_product_honest.
Print Assumptions C51_product_any_value_refuted.
Print Assumptions C51_opening_iff.
Print Assumptions C51_opening_bound.
Print Assumptions C51_base_check.
Print Assumptions C51_tree_check_iff.
Print Assumptions C51_tree_honest.
Print Assumptions C51_tree_check_bound.
Print Assumptions C51_own_tests.
Print Assumptions C51_own_tests_limits.
Print Assumptions C51_bulk_extend.
Print Assumptions C51_bulk_need.
