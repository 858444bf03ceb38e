(** What the verifier sees of the conversion masks, as a function of the mask values. *)
From Coq Require Import NArith List Arith.
From Verif Require Import Word FpModel ArithSpec EdaModel.
Import ListNotations.

(** a conversion: of an authenticated boolean value, or of an arithmetic share *)
Inductive conv := ToArith (x : N) | ToBool (a : N).
Definition conv_ok (c : conv) : Prop :=
  match c with ToArith x => (x < prm)%N | ToBool a => (hi64 a < prm)%N /\ (lo64 a < prm)%N end.
(** the word opened by a conversion through a mask with equal halves and share [a] (edabits.h:151-165, 221-236) *)
Definition conv_word (c : conv) (m : N) : N :=
  match c with ToArith x => fst (b2a_prv x (hi64 m) m) | ToBool a => fst (a2b_open m a) end.
(** the candidates of a generation: values and macs *)
Definition cands (fs ms : list N) (i : nat) : N := mkblock (nth i fs 0%N) (nth i ms 0%N).
(** a generation with offset [r] followed by conversions [cs] through the first masks: words of the opening, words of
    the bucket check, words of the conversions; and the values of the masks not used *)
Record gview := { g_open : list N; g_sums : list N; g_conv : list N; g_rest : list N }.
Definition gen_view (NN C r : nat) (cs : list conv) (fs ms : list N) : gview :=
  let words := fst (gen_prv NN C (cands fs ms) (fun _ => []) (fun _ => []) r) in
  {| g_open := nth 0 words []; g_sums := nth 1 words [];
     g_conv := map (fun ci => conv_word (snd ci) (cands fs ms (fst ci))) (combine (seq 0 (length cs)) cs);
     g_rest := skipn (length cs) (firstn NN fs) |}.
(** words of the right number and range *)
Definition canon (n : nat) (l : list N) : Prop := length l = n /\ Forall (fun w => (w < prm)%N) l.
Definition view_ok (NN C k : nat) (v : gview) : Prop :=
  canon C (g_open v) /\ canon NN (g_sums v) /\ canon k (g_conv v) /\ canon (NN - k) (g_rest v).

(** several generations; offset and conversions may depend on the words seen so far *)
Definition seen (v : gview) : list N * list N * list N := (g_open v, g_sums v, g_conv v).
Definition strategy : Type := list (list N * list N * list N) -> nat * list conv.
Definition strat_ok (NN C : nat) (st : strategy) : Prop :=
  forall past, fst (st past) < NN + C /\ fst (st past) + C <= NN + C /\ length (snd (st past)) <= NN /\ Forall conv_ok (snd (st past)).
Fixpoint views (NN C : nat) (st : strategy) (past : list (list N * list N * list N)) (gens : list (list N * list N)) : list gview :=
  match gens with
  | [] => []
  | (fs, ms) :: gens' =>
      let v := gen_view NN C (fst (st past)) (snd (st past)) fs ms in
      v :: views NN C st (past ++ [seen v]) gens'
  end.
Fixpoint views_ok (NN C : nat) (st : strategy) (past : list (list N * list N * list N)) (vs : list gview) : Prop :=
  match vs with
  | [] => True
  | v :: vs' => view_ok NN C (length (snd (st past))) v /\ views_ok NN C st (past ++ [seen v]) vs'
  end.
