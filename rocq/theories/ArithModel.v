(** Model of the arithmetic engine over F_p, p = 2^61-1:
    /repo/emp-zk/emp-zk-arith/{ostriple.h, triple_auth.h, polynomial.h, zk_fp_exec_prover.h,
    zk_fp_exec_verifier.h, int_fp.h}.

    Simplifications, stated once:
    - VoleTriple::extend is an oracle: the i-th correlation gives the prover the block
      makeBlock(u_i, m_i) and the verifier the word k_i (C18-C25 treat the generator itself).
    - The challenge blocks of share_seed_gen (ostriple.h:344-354) and the poly challenge
      (polynomial.h:63-66) are oracles, the same on both sides (the verifier sends them).
    - The hash object is the list of words put into it; the digest is an arbitrary function.
    - error() (which terminates the verifier) is the flag [v_err]; CheatRecord::put is [v_cheat].
    - The channel is not modelled: the prover's messages are lists, the verifier reads streams.
    - [None] is undefined behaviour (integer modulo by zero). *)
From Coq Require Import NArith List Bool Arith.
From Verif Require Import Word FpModel.
Import ListNotations.

(** * Inputs and multiplications *)
(** ostriple.h:69-77  authenticated_val_input(w): label and word sent.  The batch forms
    (ostriple.h:79-90, 105-117) run the same statements in a loop over consecutive correlations
    and words; they are sequences of [AIn] steps here. *)
Definition a_prv_input (mac : N) (w : N) : N * N :=
  let lam := sub64 PR w in
  let lam := add_mod (hi64 mac) lam in (mkblock w (lo64 mac), lam).
(** ostriple.h:92-103  authenticated_val_input() on the verifier's side. *)
Definition a_ver_input (delta key lam : N) : N :=
  let lam := mult_mod lam delta in add_mod key lam.
(** ostriple.h:122-142  auth_compute_mul_send. *)
Definition a_prv_mul (mac Ma Mb : N) : N * N :=
  let d := mult_mod (hi64 Ma) (hi64 Mb) in
  let s := sub64 PR d in
  let s := add_mod (hi64 mac) s in (mkblock d (lo64 mac), s).
(** ostriple.h:144-162  auth_compute_mul_recv. *)
Definition a_ver_mul (delta key d : N) : N :=
  let d := mult_mod d delta in add_mod key d.

(** * Local gates *)
(** zk_fp_exec_prover.h:50-55 add_gate (prover), zk_fp_exec_verifier.h:51-53 (verifier). *)
Definition a_prv_add (a b : N) : N :=
  let val := mod128 (add128 (hi64 a) (hi64 b)) PR in
  let mac := mod128 (add128 (lo64 a) (lo64 b)) PR in
  N.lxor (N.shiftl val 64 mod W128) mac.
Definition a_ver_add (a b : N) : N := mod128 (add128 a b) PR.
(** ostriple.h:436-438 auth_mac_mul_const, ostriple.h:463-465 auth_key_mul_const. *)
Definition a_prv_mulc (a c : N) : N := mult_mod_b a c.
Definition a_ver_mulc (a c : N) : N := mult_mod a c.
(** ostriple.h:428-432 auth_mac_subtract, ostriple.h:456-459 auth_key_subtract. *)
Definition a_prv_sub (a b : N) : N :=
  let res := mm_sub_epi64 prs b in
  let res := mm_add_epi64 a res in vec_mod res.
Definition a_ver_sub (a b : N) : N := let key := sub128 PR b in add_mod (lo64 key) a.
(** ostriple.h:420-424 auth_mac_add_const, ostriple.h:448-452 auth_key_add_const. *)
Definition a_prv_addc (a c : N) : N :=
  let cc := mkblock c 0 in
  let cc := mm_add_epi64 a cc in vec_mod cc.
Definition a_ver_addc (delta a c : N) : N :=
  let tmp := mult_mod c delta in
  let tmp := sub128 PR tmp in add_mod a (lo64 tmp).
(** ostriple.h:413-416 auth_mac_add, ostriple.h:442-444 auth_key_add. *)
Definition a_prv_add2 (a b : N) : N := vec_mod (mm_add_epi64 a b).
Definition a_ver_add2 (a b : N) : N := add_mod a b.
(** zk_fp_exec_prover.h:66-68, zk_fp_exec_verifier.h:64-68  pub_label. *)
Definition a_prv_pub (pub_mac a : N) : N := mkblock a pub_mac.
Definition a_ver_pub (delta pub_mac a : N) : N :=
  let key := mult_mod delta a in
  let key := sub64 PR key in add_mod key pub_mac.

(** * Batch check of multiplications *)
Definition aseg {A} (start n : nat) (l : list A) : list A := firstn n (skipn start l).
(** ostriple.h:259-267  terms of one gate (left, right, out), prover. *)
Definition a_prv_terms (g : N * N * N) : N * N :=
  let '(l, r, o) := g in
  let a := hi64 l in let ma := lo64 l in
  let b := hi64 r in let mb := lo64 r in
  let mc := lo64 o in
  let A0 := mult_mod ma mb in
  let A1 := add_mod (mult_mod a mb) (mult_mod b ma) in
  let tmp := sub64 PR mc in
  let A1 := add_mod A1 tmp in (A0, A1).
(** ostriple.h:278-281  verifier. *)
Definition a_ver_term (delta : N) (g : N * N * N) : N :=
  let '(l, r, o) := g in
  add_mod (mult_mod (lo64 l) (lo64 r)) (mult_mod (lo64 o) delta).
(** ostriple.h:268-269, 282: accumulation with the challenge powers. *)
Fixpoint a_acc (acc : N) (xs chi : list N) : N :=
  match xs, chi with
  | x :: xs', c :: chi' => a_acc (add_mod acc (mult_mod x c)) xs' chi'
  | _, _ => acc
  end.
(** ostriple.h:243-288  andgate_correctness_check for one worker. *)
Definition a_chi (seedblk : N) (n : nat) : list N := uni_hash_coeff_gen (mod1 (lo64 seedblk)) n.
Definition a_prv_range (buf : list (N * N * N)) (start n : nat) (seedblk : N) : N * N :=
  let seg := map a_prv_terms (aseg start n buf) in
  (a_acc 0 (map fst seg) (a_chi seedblk n), a_acc 0 (map snd seg) (a_chi seedblk n)).
Definition a_ver_range (delta : N) (buf : list (N * N * N)) (start n : nat) (seedblk : N) : N :=
  a_acc 0 (map (a_ver_term delta) (aseg start n buf)) (a_chi seedblk n).
(** ostriple.h:172-202  worker ranges: one range below 32 gates, else the split. *)
Definition a_ranges (threads check_cnt : nat) : option (list (nat * nat)) :=
  if Nat.ltb check_cnt 32 then Some [(0, check_cnt)] else
  let task_base := check_cnt / threads in
  if Nat.eqb task_base 0 then None else
  let leftover := task_base + check_cnt mod task_base in
  Some (map (fun i => (i * task_base, task_base)) (seq 0 (threads - 1))
        ++ [((threads - 1) * task_base, leftover)]).
(** ostriple.h:179-183, 208-216  sums over the workers (U, V on one side, W on the other). *)
Definition a_prv_sum (buf : list (N * N * N)) (rs : list (nat * nat)) (seed : nat -> N) : N * N :=
  fold_left (fun acc ir =>
      let s := a_prv_range buf (fst (snd ir)) (snd (snd ir)) (seed (fst ir)) in
      (add_mod (fst acc) (fst s), add_mod (snd acc) (snd s)))
    (combine (seq 0 (length rs)) rs) (0%N, 0%N).
Definition a_ver_sum (delta : N) (buf : list (N * N * N)) (rs : list (nat * nat)) (seed : nat -> N) : N :=
  fold_left (fun acc ir =>
      add_mod acc (a_ver_range delta buf (fst (snd ir)) (snd (snd ir)) (seed (fst ir))))
    (combine (seq 0 (length rs)) rs) 0%N.
(** ostriple.h:219-227  masked message; ostriple.h:228-238 and polynomial.h:71-76 acceptance. *)
Definition a_prv_msg (UV : N * N) (ope : N) : N * N :=
  (add_mod (fst UV) (lo64 ope), add_mod (snd UV) (hi64 ope)).
Definition a_ver_accept (delta W ope : N) (msg : N * N) : bool :=
  let W := add_mod W (lo64 ope) in
  let c1 := mult_mod (snd msg) delta in
  let c1 := add_mod c1 W in N.eqb (fst msg) c1.

(** * Polynomial proofs *)
(** polynomial.h:88-106  one queued relation sum c_i x_i y_i + c_0, prover. *)
Definition poly_prv_term (x y c : N) : N * N :=
  let w0 := hi64 x in let m0 := lo64 x in let w1 := hi64 y in let m1 := lo64 y in
  let t0 := mult_mod m0 m1 in
  let t0 := mult_mod c t0 in
  let t1 := add_mod (mult_mod m0 w1) (mult_mod m1 w0) in
  let t1 := mult_mod c t1 in (t0, t1).
Definition poly_prv (xs ys coeff : list N) : N * N :=
  fold_left (fun acc xyc =>
      let t := poly_prv_term (fst (fst xyc)) (snd (fst xyc)) (snd xyc) in
      (add_mod (fst acc) (fst t), add_mod (snd acc) (snd t)))
    (combine (combine xs ys) (tl coeff)) (0%N, 0%N).
(** polynomial.h:107-118  verifier. *)
Definition poly_ver (delta : N) (xs ys coeff : list N) : N :=
  let B := fold_left (fun acc xyc =>
      let t := mult_mod (lo64 (fst (fst xyc))) (lo64 (snd (fst xyc))) in
      let t := mult_mod (snd xyc) t in add_mod acc t)
    (combine (combine xs ys) (tl coeff)) 0%N in
  let tmp := mult_mod delta delta in
  let tmp := mult_mod (hd 0%N coeff) tmp in add_mod B tmp.
(** polynomial.h:128-144  zkp_inner_prdt, prover. *)
Definition inner_prv (xs ys : list N) : N * N :=
  fold_left (fun acc xy =>
      let w0 := hi64 (fst xy) in let m0 := lo64 (fst xy) in
      let w1 := hi64 (snd xy) in let m1 := lo64 (snd xy) in
      (add_mod (fst acc) (mult_mod m0 m1),
       add_mod (snd acc) (add_mod (mult_mod m0 w1) (mult_mod m1 w0))))
    (combine xs ys) (0%N, 0%N).
(** polynomial.h:145-155  zkp_inner_prdt, verifier. *)
Definition inner_ver (delta : N) (xs ys : list N) (constant : N) : N :=
  let B := fold_left (fun acc xy => add_mod acc (mult_mod (lo64 (fst xy)) (lo64 (snd xy))))
             (combine xs ys) 0%N in
  let tmp := mult_mod delta delta in
  let tmp := mult_mod constant tmp in add_mod B tmp.

(** * Sessions *)
Inductive agate : Type :=
| AIn (w : N)                       (* IntFp(w, ALICE); the verifier ignores w *)
| APub (a : N)                      (* IntFp(a, PUBLIC) *)
| AAdd (i j : nat)                  (* operator+ *)
| AMulC (i : nat) (c : N)           (* operator*(uint64_t); negate is c = p-1 *)
| AMul (i j : nat)                  (* operator* *)
| ASub (i j : nat)                  (* FpOSTriple::auth_*_subtract *)
| AAddC (i : nat) (c : N)           (* FpOSTriple::auth_*_add_const *)
| AReveal (i : nat)                 (* reveal() *)
| ACheck (i : nat) (v : N)          (* reveal(expect) *)
| AZero (i : nat)                   (* reveal_zero() *)
| APoly (xs ys : list nat) (coeff : list N)   (* fp_zkp_poly_deg2 *)
| AInner (xs ys : list nat) (c : N).          (* fp_zkp_inner_prdt *)

Definition awire (ws : list N) (i : nat) : N := nth i ws 0%N.
Definition awires (ws : list N) (is : list nat) : list N := map (awire ws) is.

Record apst := { ap_w : list N; ap_buf : list (N * N * N); ap_poly : list (N * N);
                 ap_hash : list N; ap_vole : nat; ap_chk : nat; ap_pchk : nat;
                 ap_words : list N; ap_msgs : list (N * N); ap_pmsgs : list (N * N);
                 ap_outs : list N }.
Section AProver.
  Variables (pub_mac : N) (pV : nat -> N) (threads csz psz : nat).
  Variables (seeds : nat -> nat -> N) (pseeds : nat -> N).
  (** ostriple.h:166-241 on the prover's side *)
  Definition ap_manage (s : apst) : option apst :=
    match a_ranges threads (length (ap_buf s)) with
    | None => None
    | Some rs =>
        let m := a_prv_msg (a_prv_sum (ap_buf s) rs (seeds (ap_chk s))) (pV (ap_vole s)) in
        Some {| ap_w := ap_w s; ap_buf := ap_buf s; ap_poly := ap_poly s; ap_hash := ap_hash s;
                ap_vole := S (ap_vole s); ap_chk := S (ap_chk s); ap_pchk := ap_pchk s;
                ap_words := ap_words s; ap_msgs := ap_msgs s ++ [m]; ap_pmsgs := ap_pmsgs s;
                ap_outs := ap_outs s |}
    end.
  Definition ap_clear (s : apst) : apst :=
    {| ap_w := ap_w s; ap_buf := []; ap_poly := ap_poly s; ap_hash := ap_hash s;
       ap_vole := ap_vole s; ap_chk := ap_chk s; ap_pchk := ap_pchk s; ap_words := ap_words s;
       ap_msgs := ap_msgs s; ap_pmsgs := ap_pmsgs s; ap_outs := ap_outs s |}.
  Definition ap_precheck (s : apst) : option apst :=
    if Nat.eqb (length (ap_buf s)) csz
    then match ap_manage s with None => None | Some s' => Some (ap_clear s') end
    else Some s.
  (** polynomial.h:42-61,79  batch_check, prover; nothing to do for an empty queue *)
  Definition ap_batch (s : apst) : apst :=
    match ap_poly s with
    | [] => s
    | q =>
        let chi := uni_hash_coeff_gen (mod1 (pseeds (ap_pchk s))) (length q) in
        let UV := (vector_inn_prdt_sum_red chi (map fst q), vector_inn_prdt_sum_red chi (map snd q)) in
        {| ap_w := ap_w s; ap_buf := ap_buf s; ap_poly := []; ap_hash := ap_hash s;
           ap_vole := S (ap_vole s); ap_chk := ap_chk s; ap_pchk := S (ap_pchk s);
           ap_words := ap_words s; ap_msgs := ap_msgs s;
           ap_pmsgs := ap_pmsgs s ++ [a_prv_msg UV (pV (ap_vole s))]; ap_outs := ap_outs s |}
    end.
  (** polynomial.h:85-86, 120, 125-126, 157 *)
  Definition ap_queue (s : apst) (t : N * N) : apst :=
    let s := if Nat.leb psz (length (ap_poly s)) then ap_batch s else s in
    {| ap_w := ap_w s; ap_buf := ap_buf s; ap_poly := ap_poly s ++ [t]; ap_hash := ap_hash s;
       ap_vole := ap_vole s; ap_chk := ap_chk s; ap_pchk := ap_pchk s; ap_words := ap_words s;
       ap_msgs := ap_msgs s; ap_pmsgs := ap_pmsgs s; ap_outs := ap_outs s |}.
  Definition ap_add (s : apst) (w : N) : apst :=
    {| ap_w := ap_w s ++ [w]; ap_buf := ap_buf s; ap_poly := ap_poly s; ap_hash := ap_hash s;
       ap_vole := ap_vole s; ap_chk := ap_chk s; ap_pchk := ap_pchk s; ap_words := ap_words s;
       ap_msgs := ap_msgs s; ap_pmsgs := ap_pmsgs s; ap_outs := ap_outs s |}.
  (** ostriple.h:294-301 reveal_send (stores the mac, sends the value) *)
  Definition ap_reveal (s : apst) (i : nat) (out : bool) : apst :=
    let v := hi64 (awire (ap_w s) i) in
    {| ap_w := ap_w s; ap_buf := ap_buf s; ap_poly := ap_poly s;
       ap_hash := ap_hash s ++ [lo64 (awire (ap_w s) i)];
       ap_vole := ap_vole s; ap_chk := ap_chk s; ap_pchk := ap_pchk s;
       ap_words := ap_words s ++ [v]; ap_msgs := ap_msgs s; ap_pmsgs := ap_pmsgs s;
       ap_outs := if out then ap_outs s ++ [v] else ap_outs s |}.
  Definition ap_step (s : apst) (g : agate) : option apst :=
    match g with
    | AIn x =>
        let '(w, lam) := a_prv_input (pV (ap_vole s)) x in
        Some {| ap_w := ap_w s ++ [w]; ap_buf := ap_buf s; ap_poly := ap_poly s; ap_hash := ap_hash s;
                ap_vole := S (ap_vole s); ap_chk := ap_chk s; ap_pchk := ap_pchk s;
                ap_words := ap_words s ++ [lam]; ap_msgs := ap_msgs s; ap_pmsgs := ap_pmsgs s;
                ap_outs := ap_outs s |}
    | APub a => Some (ap_add s (a_prv_pub pub_mac a))
    | AAdd i j => Some (ap_add s (a_prv_add (awire (ap_w s) i) (awire (ap_w s) j)))
    | AMulC i c => Some (ap_add s (a_prv_mulc (awire (ap_w s) i) c))
    | ASub i j => Some (ap_add s (a_prv_sub (awire (ap_w s) i) (awire (ap_w s) j)))
    | AAddC i c => Some (ap_add s (a_prv_addc (awire (ap_w s) i) c))
    | AMul i j =>
        match ap_precheck s with
        | None => None
        | Some s =>
            let a := awire (ap_w s) i in let b := awire (ap_w s) j in
            let '(w, d) := a_prv_mul (pV (ap_vole s)) a b in
            Some {| ap_w := ap_w s ++ [w]; ap_buf := ap_buf s ++ [(a, b, w)]; ap_poly := ap_poly s;
                    ap_hash := ap_hash s; ap_vole := S (ap_vole s); ap_chk := ap_chk s;
                    ap_pchk := ap_pchk s; ap_words := ap_words s ++ [d]; ap_msgs := ap_msgs s;
                    ap_pmsgs := ap_pmsgs s; ap_outs := ap_outs s |}
        end
    | AReveal i => Some (ap_reveal s i true)
    | ACheck i _ => Some (ap_reveal s i false)                   (* ostriple.h:312-317 *)
    | AZero i =>                                                 (* ostriple.h:329-334 *)
        Some {| ap_w := ap_w s; ap_buf := ap_buf s; ap_poly := ap_poly s;
                ap_hash := ap_hash s ++ [lo64 (awire (ap_w s) i)];
                ap_vole := ap_vole s; ap_chk := ap_chk s; ap_pchk := ap_pchk s;
                ap_words := ap_words s; ap_msgs := ap_msgs s; ap_pmsgs := ap_pmsgs s;
                ap_outs := ap_outs s |}
    | APoly xs ys coeff => Some (ap_queue s (poly_prv (awires (ap_w s) xs) (awires (ap_w s) ys) coeff))
    | AInner xs ys c => Some (ap_queue s (inner_prv (awires (ap_w s) xs) (awires (ap_w s) ys)))
    end.
  (** ostriple.h:48-49 the constructor consumes one correlation *)
  Definition ap_init : apst :=
    {| ap_w := []; ap_buf := []; ap_poly := []; ap_hash := []; ap_vole := 1; ap_chk := 0; ap_pchk := 0;
       ap_words := []; ap_msgs := []; ap_pmsgs := []; ap_outs := [] |}.
  Fixpoint ap_run (s : apst) (c : list agate) : option apst :=
    match c with
    | [] => Some s
    | g :: c' => match ap_step s g with None => None | Some s' => ap_run s' c' end
    end.
  (** emp-zk-arith.h:46-51 finalize_zk_arith: ~FpPolyProof (polynomial.h:34-40) then
      ~FpOSTriple (ostriple.h:54-63) *)
  Definition ap_final (s : apst) : option apst :=
    let s := ap_batch s in
    match ap_buf s with [] => Some s | _ => ap_manage s end.
  Definition ap_exec (c : list agate) : option apst :=
    match ap_run ap_init c with None => None | Some s => ap_final s end.
End AProver.

Record avst := { av_w : list N; av_buf : list (N * N * N); av_poly : list N;
                 av_hash : list N; av_vole : nat; av_chk : nat; av_pchk : nat;
                 av_words : nat; av_outs : list N; av_err : bool; av_cheat : bool }.
Section AVerifier.
  Variables (pub_mac : N) (vK : nat -> N) (delta : N) (threads csz psz : nat).
  Variables (seeds : nat -> nat -> N) (pseeds : nat -> N).
  Variable words : nat -> N.            (* 64-bit words received outside the checks *)
  Variables chkmsg pchkmsg : nat -> N * N.
  Definition av_manage (s : avst) : option avst :=
    match a_ranges threads (length (av_buf s)) with
    | None => None
    | Some rs =>
        let ok := a_ver_accept delta (a_ver_sum delta (av_buf s) rs (seeds (av_chk s)))
                    (vK (av_vole s)) (chkmsg (av_chk s)) in
        Some {| av_w := av_w s; av_buf := av_buf s; av_poly := av_poly s; av_hash := av_hash s;
                av_vole := S (av_vole s); av_chk := S (av_chk s); av_pchk := av_pchk s;
                av_words := av_words s; av_outs := av_outs s;
                av_err := av_err s || negb ok; av_cheat := av_cheat s |}
    end.
  Definition av_clear (s : avst) : avst :=
    {| av_w := av_w s; av_buf := []; av_poly := av_poly s; av_hash := av_hash s;
       av_vole := av_vole s; av_chk := av_chk s; av_pchk := av_pchk s; av_words := av_words s;
       av_outs := av_outs s; av_err := av_err s; av_cheat := av_cheat s |}.
  Definition av_precheck (s : avst) : option avst :=
    if Nat.eqb (length (av_buf s)) csz
    then match av_manage s with None => None | Some s' => Some (av_clear s') end
    else Some s.
  (** polynomial.h:42-49,62-79 *)
  Definition av_batch (s : avst) : avst :=
    match av_poly s with
    | [] => s
    | q =>
        let chi := uni_hash_coeff_gen (mod1 (pseeds (av_pchk s))) (length q) in
        let ok := a_ver_accept delta (vector_inn_prdt_sum_red chi q) (vK (av_vole s)) (pchkmsg (av_pchk s)) in
        {| av_w := av_w s; av_buf := av_buf s; av_poly := []; av_hash := av_hash s;
           av_vole := S (av_vole s); av_chk := av_chk s; av_pchk := S (av_pchk s);
           av_words := av_words s; av_outs := av_outs s; av_err := av_err s;
           av_cheat := av_cheat s || negb ok |}
    end.
  Definition av_queue (s : avst) (t : N) : avst :=
    let s := if Nat.leb psz (length (av_poly s)) then av_batch s else s in
    {| av_w := av_w s; av_buf := av_buf s; av_poly := av_poly s ++ [t]; av_hash := av_hash s;
       av_vole := av_vole s; av_chk := av_chk s; av_pchk := av_pchk s; av_words := av_words s;
       av_outs := av_outs s; av_err := av_err s; av_cheat := av_cheat s |}.
  Definition av_add (s : avst) (w : N) : avst :=
    {| av_w := av_w s ++ [w]; av_buf := av_buf s; av_poly := av_poly s; av_hash := av_hash s;
       av_vole := av_vole s; av_chk := av_chk s; av_pchk := av_pchk s; av_words := av_words s;
       av_outs := av_outs s; av_err := av_err s; av_cheat := av_cheat s |}.
  (** ostriple.h:303-310 reveal_recv, 319-327 reveal_check_recv *)
  Definition av_reveal (s : avst) (i : nat) (expect : option N) : avst :=
    let v := words (av_words s) in
    let mac := mult_mod v (lo64 delta) in
    let mac := add_mod mac (lo64 (awire (av_w s) i)) in
    {| av_w := av_w s; av_buf := av_buf s; av_poly := av_poly s; av_hash := av_hash s ++ [mac];
       av_vole := av_vole s; av_chk := av_chk s; av_pchk := av_pchk s; av_words := S (av_words s);
       av_outs := match expect with None => av_outs s ++ [v] | _ => av_outs s end;
       av_err := match expect with None => av_err s | Some e => av_err s || negb (N.eqb e v) end;
       av_cheat := av_cheat s |}.
  Definition av_step (s : avst) (g : agate) : option avst :=
    match g with
    | AIn _ =>
        let w := a_ver_input delta (vK (av_vole s)) (words (av_words s)) in
        Some {| av_w := av_w s ++ [w]; av_buf := av_buf s; av_poly := av_poly s; av_hash := av_hash s;
                av_vole := S (av_vole s); av_chk := av_chk s; av_pchk := av_pchk s;
                av_words := S (av_words s); av_outs := av_outs s; av_err := av_err s; av_cheat := av_cheat s |}
    | APub a => Some (av_add s (a_ver_pub delta pub_mac a))
    | AAdd i j => Some (av_add s (a_ver_add (awire (av_w s) i) (awire (av_w s) j)))
    | AMulC i c => Some (av_add s (a_ver_mulc (awire (av_w s) i) c))
    | ASub i j => Some (av_add s (a_ver_sub (awire (av_w s) i) (awire (av_w s) j)))
    | AAddC i c => Some (av_add s (a_ver_addc delta (awire (av_w s) i) c))
    | AMul i j =>
        match av_precheck s with
        | None => None
        | Some s =>
            let a := awire (av_w s) i in let b := awire (av_w s) j in
            let w := a_ver_mul delta (vK (av_vole s)) (words (av_words s)) in
            Some {| av_w := av_w s ++ [w]; av_buf := av_buf s ++ [(a, b, w)]; av_poly := av_poly s;
                    av_hash := av_hash s; av_vole := S (av_vole s); av_chk := av_chk s;
                    av_pchk := av_pchk s; av_words := S (av_words s); av_outs := av_outs s;
                    av_err := av_err s; av_cheat := av_cheat s |}
        end
    | AReveal i => Some (av_reveal s i None)
    | ACheck i v => Some (av_reveal s i (Some v))
    | AZero i =>
        Some {| av_w := av_w s; av_buf := av_buf s; av_poly := av_poly s;
                av_hash := av_hash s ++ [lo64 (awire (av_w s) i)];
                av_vole := av_vole s; av_chk := av_chk s; av_pchk := av_pchk s;
                av_words := av_words s; av_outs := av_outs s; av_err := av_err s; av_cheat := av_cheat s |}
    | APoly xs ys coeff => Some (av_queue s (poly_ver delta (awires (av_w s) xs) (awires (av_w s) ys) coeff))
    | AInner xs ys c => Some (av_queue s (inner_ver delta (awires (av_w s) xs) (awires (av_w s) ys) c))
    end.
  Definition av_init : avst :=
    {| av_w := []; av_buf := []; av_poly := []; av_hash := []; av_vole := 1; av_chk := 0; av_pchk := 0;
       av_words := 0; av_outs := []; av_err := false; av_cheat := false |}.
  Fixpoint av_run (s : avst) (c : list agate) : option avst :=
    match c with
    | [] => Some s
    | g :: c' => match av_step s g with None => None | Some s' => av_run s' c' end
    end.
  Definition av_final (s : avst) : option avst :=
    let s := av_batch s in
    match av_buf s with [] => Some s | _ => av_manage s end.
  Definition av_exec (c : list agate) : option avst :=
    match av_run av_init c with None => None | Some s => av_final s end.
End AVerifier.

(** Outcome on the verifier's side: (process terminated by error(), CheatRecord non-empty).
    ostriple.h:54-57, triple_auth.h:23-37 (digest comparison). *)
Definition av_outcome {D : Type} (Deqb : D -> D -> bool) (H : list N -> D) (s : avst) (dig : D) : bool * bool :=
  (av_err s || negb (Deqb (H (av_hash s)) dig), av_cheat s).
