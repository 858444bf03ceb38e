(** Specification of the session life cycle, in terms of the sequence of calls made so far (oldest first). *)
From Coq Require Import List Bool.
From Verif Require Import SessionModel.
Import ListNotations.

Definition is_final_bool (c : call) : Prop := exists a b d, c = FinalBool a b d.
Definition is_final_arith (c : call) : Prop := exists a b d, c = FinalArith a b d.

(** the boolean engine was set up and not finalised since *)
Definition bool_open (tr : list call) : Prop :=
  exists pre post, tr = pre ++ SetupBool :: post /\ forall c, In c post -> ~ is_final_bool c.
Definition bool_never (tr : list call) : Prop := ~ In SetupBool tr.
(** the arithmetic engine was set up (with or without conversion) and not finalised since *)
Definition arith_open (tr : list call) : Prop :=
  exists pre conv post, tr = pre ++ SetupArith conv :: post /\ forall c, In c post -> ~ is_final_arith c.
Definition arith_never (tr : list call) : Prop := forall conv, ~ In (SetupArith conv) tr.
(** the arithmetic engine was set up with conversion and not finalised since *)
Definition conv_open (tr : list call) : Prop :=
  exists pre post, tr = pre ++ SetupArith true :: post /\ forall c, In c post -> ~ is_final_arith c.
Definition conv_never (tr : list call) : Prop := ~ In (SetupArith true) tr.

(** When a call is free of undefined behaviour, given the calls made before it *)
Definition safe (tr : list call) (c : call) : Prop :=
  match c with
  | SetupBool => True
  | BoolBatch _ => bool_open tr
  | FinalBool _ _ _ => bool_open tr \/ bool_never tr
  | SetupArith conv => if conv then bool_open tr \/ bool_never tr else True
  | ArithUse => arith_open tr
  | ArithBatch _ => arith_open tr
  | Convert => conv_open tr /\ bool_open tr
  | FinalArith _ _ _ => (arith_open tr \/ arith_never tr) /\ (conv_open tr \/ conv_never tr)
  end.

(** A check that records its failure failed in call [c], made after the calls [tr] *)
Definition records_failure (tr : list call) (c : call) : Prop :=
  match c with
  | BoolBatch ok | ArithBatch ok => ok = false
  | FinalBool a b d => bool_open tr /\ (a = Some false \/ b = Some false \/ d = false)
  | FinalArith _ p _ => arith_open tr /\ p = Some false
  | _ => False
  end.
(** ... in some call made since the last setup_zk_bool (since the start, if there was none) *)
Definition failure_since_setup (tr : list call) : Prop :=
  exists pre c post, tr = pre ++ c :: post /\ records_failure pre c /\ ~ In SetupBool (c :: post).

(** a failed check that ends the process instead of being recorded *)
Definition exits (tr : list call) (c : call) : Prop :=
  match c with
  | SetupArith true => bool_never tr
  | FinalArith conv_ok _ zk_ok => (conv_open tr /\ conv_ok = false) \/ (arith_open tr /\ zk_ok = false)
  | _ => False
  end.

(** A whole session in the intended order: set up both engines, use them, finalise the arithmetic engine and
    then the boolean one.  [conv]: with conversions. *)
Record session := { s_uses : list call; s_conv_poly : option bool; s_poly : option bool; s_and : option bool; s_dig : bool }.
Definition use_ok (conv : bool) (c : call) : Prop :=
  match c with BoolBatch _ | ArithUse | ArithBatch _ => True | Convert => conv = true | _ => False end.
Definition session_calls (conv : bool) (s : session) : list call :=
  [SetupBool; SetupArith conv] ++ s_uses s ++
  [FinalArith true (s_conv_poly s) true; FinalBool (s_poly s) (s_and s) (s_dig s)].
Definition call_fails (c : call) : bool := match c with BoolBatch false | ArithBatch false => true | _ => false end.
Definition is_fail (o : option bool) : bool := match o with Some false => true | _ => false end.
(** some check of the session failed *)
Definition session_fails (s : session) : bool :=
  existsb call_fails (s_uses s) || is_fail (s_conv_poly s) || is_fail (s_poly s) || is_fail (s_and s) || negb (s_dig s).

(** number of finalize_zk_bool calls *)
Definition finals (tr : list call) : nat :=
  length (filter (fun c => match c with FinalBool _ _ _ => true | _ => false end) tr).
