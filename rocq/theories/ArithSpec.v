(** Specifications for the arithmetic engine, independent of the model's helpers:
    plain evaluation modulo p, and what an arbitrary prover has committed to. *)
From Coq Require Import NArith List Bool Arith.
From Verif Require Import ArithModel.
Import ListNotations.

Definition prm : N := (2 ^ 61 - 1)%N.
Definition pval (ws : list N) (i : nat) : N := nth i ws 0%N.
Definition fsub (a b : N) : N := ((a + (prm - b mod prm)) mod prm)%N.
(** sum c_i x_i y_i + c_0 modulo p *)
Definition rel_value (xs ys cs : list N) (c0 : N) : N :=
  ((fold_right N.add 0 (map (fun t => snd t * (fst (fst t) * snd (fst t))) (combine (combine xs ys) cs)) + c0) mod prm)%N.
Definition ones (n : nat) : list N := repeat 1%N n.

(** * Plain evaluation: wires, revealed values, and whether every queried relation holds *)
Record apl := { pl_w : list N; pl_outs : list N; pl_ok : bool }.
Definition pl_step (s : apl) (g : agate) : apl :=
  let v := pval (pl_w s) in
  let push x := {| pl_w := pl_w s ++ [x]; pl_outs := pl_outs s; pl_ok := pl_ok s |} in
  let test b := {| pl_w := pl_w s; pl_outs := pl_outs s; pl_ok := pl_ok s && b |} in
  match g with
  | AIn w => push (w mod prm)%N
  | APub a => push (a mod prm)%N
  | AAdd i j => push ((v i + v j) mod prm)%N
  | AMulC i c => push ((v i * c) mod prm)%N
  | AMul i j => push ((v i * v j) mod prm)%N
  | ASub i j => push (fsub (v i) (v j))
  | AAddC i c => push ((v i + c) mod prm)%N
  | AReveal i => {| pl_w := pl_w s; pl_outs := pl_outs s ++ [v i]; pl_ok := pl_ok s |}
  | ACheck i e => test (N.eqb (v i) (e mod prm)%N)
  | AZero i => test (N.eqb (v i) 0)
  | APoly xs ys coeff => test (N.eqb (rel_value (map v xs) (map v ys) (tl coeff) (hd 0%N coeff)) 0)
  | AInner xs ys c => test (N.eqb (rel_value (map v xs) (map v ys) (ones (length xs)) c) 0)
  end.
Definition pl_init : apl := {| pl_w := []; pl_outs := []; pl_ok := true |}.
Definition aplain (c : list agate) : apl := fold_left pl_step c pl_init.

(** circuits whose public constants are canonical and whose vectors have matching lengths *)
Definition canon (x : N) : Prop := (x < prm)%N.
Definition wf_pub (g : agate) : Prop :=
  match g with
  | APub a => canon a
  | AMulC _ c | AAddC _ c => canon c
  | APoly xs ys coeff => length ys = length xs /\ length coeff = S (length xs) /\ Forall canon coeff
  | AInner xs ys c => length ys = length xs /\ canon c
  | _ => True
  end.
(** additionally for an honest prover: canonical inputs and expected values *)
Definition wf_honest (g : agate) : Prop :=
  wf_pub g /\ match g with AIn w => canon w | ACheck _ e => canon e | _ => True end.

(** * Commitment of an arbitrary prover: [pU i] is the value part of correlation i *)
Record acst := { ac_w : list N; ac_ins : list N;
                 ac_errs : list N; ac_done : list (list N);       (* multiplications: x*y - z *)
                 ac_perrs : list N; ac_pdone : list (list N);     (* relations: value *)
                 ac_vole : nat; ac_words : nat;
                 ac_rev : list (N * N) (* committed, claimed word *) ;
                 ac_exp : list (N * N) (* claimed word, expected word *) }.
Section Commit.
  Variables (pU : nat -> N) (csz psz : nat) (words : nat -> N).
  Definition ac_new (s : acst) : N := fsub (pU (ac_vole s)) (words (ac_words s)).
  Definition ac_push (s : acst) (x : N) : acst :=
    {| ac_w := ac_w s ++ [x]; ac_ins := ac_ins s; ac_errs := ac_errs s; ac_done := ac_done s;
       ac_perrs := ac_perrs s; ac_pdone := ac_pdone s; ac_vole := ac_vole s; ac_words := ac_words s;
       ac_rev := ac_rev s; ac_exp := ac_exp s |}.
  Definition ac_flush (s : acst) : acst :=
    {| ac_w := ac_w s; ac_ins := ac_ins s; ac_errs := []; ac_done := ac_done s ++ [ac_errs s];
       ac_perrs := ac_perrs s; ac_pdone := ac_pdone s; ac_vole := S (ac_vole s); ac_words := ac_words s;
       ac_rev := ac_rev s; ac_exp := ac_exp s |}.
  Definition ac_pflush (s : acst) : acst :=
    {| ac_w := ac_w s; ac_ins := ac_ins s; ac_errs := ac_errs s; ac_done := ac_done s;
       ac_perrs := []; ac_pdone := ac_pdone s ++ [ac_perrs s]; ac_vole := S (ac_vole s); ac_words := ac_words s;
       ac_rev := ac_rev s; ac_exp := ac_exp s |}.
  Definition ac_queue (s : acst) (e : N) : acst :=
    let s := match ac_perrs s with [] => s | _ => if Nat.leb psz (length (ac_perrs s)) then ac_pflush s else s end in
    {| ac_w := ac_w s; ac_ins := ac_ins s; ac_errs := ac_errs s; ac_done := ac_done s;
       ac_perrs := ac_perrs s ++ [e]; ac_pdone := ac_pdone s; ac_vole := ac_vole s; ac_words := ac_words s;
       ac_rev := ac_rev s; ac_exp := ac_exp s |}.
  Definition ac_step (s : acst) (g : agate) : acst :=
    let v := pval (ac_w s) in
    match g with
    | AIn _ =>
        {| ac_w := ac_w s ++ [ac_new s]; ac_ins := ac_ins s ++ [ac_new s]; ac_errs := ac_errs s;
           ac_done := ac_done s; ac_perrs := ac_perrs s; ac_pdone := ac_pdone s;
           ac_vole := S (ac_vole s); ac_words := S (ac_words s); ac_rev := ac_rev s; ac_exp := ac_exp s |}
    | APub a => ac_push s (a mod prm)%N
    | AAdd i j => ac_push s ((v i + v j) mod prm)%N
    | AMulC i c => ac_push s ((v i * c) mod prm)%N
    | ASub i j => ac_push s (fsub (v i) (v j))
    | AAddC i c => ac_push s ((v i + c) mod prm)%N
    | AMul i j =>
        let s := if Nat.eqb (length (ac_errs s)) csz then ac_flush s else s in
        let z := ac_new s in
        {| ac_w := ac_w s ++ [z]; ac_ins := ac_ins s; ac_errs := ac_errs s ++ [fsub (v i * v j) z];
           ac_done := ac_done s; ac_perrs := ac_perrs s; ac_pdone := ac_pdone s;
           ac_vole := S (ac_vole s); ac_words := S (ac_words s); ac_rev := ac_rev s; ac_exp := ac_exp s |}
    | AReveal i =>
        {| ac_w := ac_w s; ac_ins := ac_ins s; ac_errs := ac_errs s; ac_done := ac_done s;
           ac_perrs := ac_perrs s; ac_pdone := ac_pdone s; ac_vole := ac_vole s; ac_words := S (ac_words s);
           ac_rev := ac_rev s ++ [(v i, words (ac_words s))]; ac_exp := ac_exp s |}
    | ACheck i e =>
        {| ac_w := ac_w s; ac_ins := ac_ins s; ac_errs := ac_errs s; ac_done := ac_done s;
           ac_perrs := ac_perrs s; ac_pdone := ac_pdone s; ac_vole := ac_vole s; ac_words := S (ac_words s);
           ac_rev := ac_rev s ++ [(v i, words (ac_words s))];
           ac_exp := ac_exp s ++ [(words (ac_words s), e)] |}
    | AZero i =>
        {| ac_w := ac_w s; ac_ins := ac_ins s; ac_errs := ac_errs s; ac_done := ac_done s;
           ac_perrs := ac_perrs s; ac_pdone := ac_pdone s; ac_vole := ac_vole s; ac_words := ac_words s;
           ac_rev := ac_rev s ++ [(v i, 0%N)]; ac_exp := ac_exp s |}
    | APoly xs ys coeff => ac_queue s (rel_value (map v xs) (map v ys) (tl coeff) (hd 0%N coeff))
    | AInner xs ys c => ac_queue s (rel_value (map v xs) (map v ys) (ones (length xs)) c)
    end.
  Definition ac_init : acst :=
    {| ac_w := []; ac_ins := []; ac_errs := []; ac_done := []; ac_perrs := []; ac_pdone := [];
       ac_vole := 1; ac_words := 0; ac_rev := []; ac_exp := [] |}.
  Definition acommit (c : list agate) : acst := fold_left ac_step c ac_init.
End Commit.
Definition mul_batches (s : acst) : list (list N) :=
  ac_done s ++ match ac_errs s with [] => [] | e => [e] end.
Definition rel_batches (s : acst) : list (list N) :=
  ac_pdone s ++ match ac_perrs s with [] => [] | e => [e] end.
(** the circuit with its private inputs replaced in order *)
Fixpoint awith_inputs (ins : list N) (c : list agate) : list agate :=
  match c with
  | [] => []
  | AIn x :: c' => match ins with
                   | [] => AIn x :: awith_inputs [] c'
                   | y :: ins' => AIn y :: awith_inputs ins' c'
                   end
  | g :: c' => g :: awith_inputs ins c'
  end.
(** challenge combination of an error vector: worker i owns (start, len) and weights its
    j-th entry with seed_i^(j+1) *)
Definition a_range_error (seed : N) (errs : list N) : N :=
  fold_right N.add 0%N (map (fun je => seed ^ (1 + N.of_nat (fst je)) * snd je)%N
                            (combine (seq 0 (length errs)) errs)).
Definition a_combined (rs : list (nat * nat)) (seed : nat -> N) (errs : list N) : N :=
  (fold_right N.add 0 (map (fun ir => a_range_error (seed (fst ir)) (firstn (snd (snd ir)) (skipn (fst (snd ir)) errs)))
         (combine (seq 0 (length rs)) rs)) mod prm)%N.
(** ideal VOLE: key of the verifier for correlation (u, m) *)
Definition vole_key (pU pMac : nat -> N) (d : N) (i : nat) : N := fsub (pMac i) (pU i * d).
(** prover's block of correlation i: value in the high word, mac in the low word *)
Definition vole_block (pU pMac : nat -> N) (i : nat) : N := (pU i * 2 ^ 64 + pMac i)%N.
Definition vole_ok (pU pMac : nat -> N) : Prop := forall i, canon (pU i) /\ canon (pMac i).
(** challenge used by worker i in check k: low word of the seed block modulo p *)
Definition a_chal (seeds : nat -> nat -> N) (k i : nat) : N := ((seeds k i mod 2 ^ 64) mod prm)%N.
(** words sent by the prover, in order of consumption: corrections at most p, claimed values any 64-bit word *)
Fixpoint words_ok (words : nat -> N) (k : nat) (c : list agate) : Prop :=
  match c with
  | [] => True
  | AIn _ :: c' | AMul _ _ :: c' => (words k <= prm)%N /\ words_ok words (S k) c'
  | AReveal _ :: c' | ACheck _ _ :: c' => (words k < 2 ^ 64)%N /\ words_ok words (S k) c'
  | _ :: c' => words_ok words k c'
  end.
(** the two shares of one wire: value and mac of the prover's block, key of the verifier *)
Definition share_ok (d : N) (blk key : N) : Prop :=
  let x := (blk / 2 ^ 64)%N in let m := (blk mod 2 ^ 64)%N in
  (x < prm /\ m < prm /\ key < prm /\ m = (key + x * d) mod prm)%N.
(** the words claimed in openings, in order *)
Fixpoint claimed (words : nat -> N) (k : nat) (c : list agate) : list N :=
  match c with
  | [] => []
  | AIn _ :: c' | AMul _ _ :: c' | ACheck _ _ :: c' => claimed words (S k) c'
  | AReveal _ :: c' => words k :: claimed words (S k) c'
  | _ :: c' => claimed words k c'
  end.
