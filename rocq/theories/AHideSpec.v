(** Independent specification for "the prover's messages hide the witness", arithmetic engine.

    The prover's side of /repo/emp-zk/emp-zk-arith/{ostriple.h, polynomial.h} (ArithModel) is run
    with ideal VOLE correlations whose verifier half (keys, Delta) is fixed and whose prover half
    is a list [u] of random field elements: correlation i gives the prover (u_i, K_i + u_i*Delta).
    The challenges (ostriple.h:344-354, polynomial.h:63-66) are chosen by an arbitrary function of
    everything the prover has sent so far. *)
From Coq Require Import NArith List Bool Arith.
From Verif Require Import Word FpModel ArithModel ArithSpec HideSpec.
Import ListNotations.

Fixpoint acount_in (c : list agate) : nat :=
  match c with [] => 0 | AIn _ :: c' => S (acount_in c') | _ :: c' => acount_in c' end.
Fixpoint acount_mul (c : list agate) : nat :=
  match c with [] => 0 | AMul _ _ :: c' => S (acount_mul c') | _ :: c' => acount_mul c' end.
Fixpoint acount_rel (c : list agate) : nat :=
  match c with [] => 0 | (APoly _ _ _ | AInner _ _ _) :: c' => S (acount_rel c') | _ :: c' => acount_rel c' end.
(** number of random field elements of a session *)
Definition aentropy (csz psz : nat) (c : list agate) : nat :=
  acount_in c + acount_mul c + checks csz (acount_mul c) + checks psz (acount_rel c).
Definition fvec (n : nat) (u : list N) : Prop := length u = n /\ Forall canon u.
(** values and macs of the correlations (correlation 0 is consumed by the constructor) *)
Definition val_of (u : list N) (i : nat) : N := match i with 0 => 0%N | S j => nth j u 0%N end.
Definition mac_of (key : nat -> N) (d : N) (u : list N) (i : nat) : N := ((key i + val_of u i * d) mod prm)%N.

(** words sent outside the checks: corrections (private inputs, multiplications), opened values,
    and values opened against a public constant *)
Fixpoint amasked (c : list agate) (ws : list N) : list N :=
  match c, ws with
  | (AIn _ | AMul _ _) :: c', w :: ws' => w :: amasked c' ws'
  | (AReveal _ | ACheck _ _) :: c', _ :: ws' => amasked c' ws'
  | (AIn _ | AMul _ _ | AReveal _ | ACheck _ _) :: _, [] => []
  | _ :: c', _ => amasked c' ws
  | [], _ => []
  end.
Fixpoint aweave (c : list agate) (masked outs : list N) : list N :=
  match c with
  | [] => []
  | (AIn _ | AMul _ _) :: c' => hd 0%N masked :: aweave c' (tl masked) outs
  | AReveal _ :: c' => hd 0%N outs :: aweave c' masked (tl outs)
  | ACheck _ e :: c' => e :: aweave c' masked outs
  | _ :: c' => aweave c' masked outs
  end.
(** everything the prover sends: words, messages of the multiplication checks, messages of the
    relation checks, and the words hashed into the final digest (triple_auth.h:23-37) *)
Definition ahist : Type := (list N * list (N * N) * list (N * N))%type.
Definition aview_t : Type := (list N * list (N * N) * list (N * N) * list N)%type.
Definition hist (p : apst) : ahist := (ap_words p, ap_msgs p, ap_pmsgs p).
Definition aview (p : apst) : aview_t := (ap_words p, ap_msgs p, ap_pmsgs p, ap_hash p).
Definition acoins (c : list agate) (p : apst) : list N :=
  amasked c (ap_words p) ++ map snd (ap_msgs p) ++ map snd (ap_pmsgs p).

Section Session.
  Variables (pub_mac : N) (key : nat -> N) (d : N) (threads csz psz : nat).
  Variables (F : ahist -> nat -> N) (G : ahist -> N).
  (** ** Honest prover with adaptively chosen challenges: every statement is the one of
      ArithModel, with the challenge computed from the messages sent so far *)
  Definition ah_step (pV : nat -> N) (s : apst) (g : agate) : option apst :=
    ap_step pub_mac pV threads csz psz (fun _ => F (hist s)) (fun _ => G (hist s)) s g.
  Fixpoint ah_run (pV : nat -> N) (s : apst) (c : list agate) : option apst :=
    match c with
    | [] => Some s
    | g :: c' => match ah_step pV s g with None => None | Some s' => ah_run pV s' c' end
    end.
  Definition ah_final (pV : nat -> N) (s : apst) : option apst :=
    let s1 := ap_batch pV (fun _ => G (hist s)) s in
    match ap_buf s1 with [] => Some s1 | _ => ap_manage pV threads (fun _ => F (hist s1)) s1 end.
  Definition ah_exec (pV : nat -> N) (c : list agate) : option apst :=
    match ah_run pV ap_init c with None => None | Some s => ah_final pV s end.
  Definition ahonest (c : list agate) (ins u : list N) : option apst :=
    ah_exec (vole_block (val_of u) (mac_of key d u)) (awith_inputs ins c).

  (** ** Simulator: keys, Delta, public circuit, outputs and a list of random elements *)
  Variables (ws a1s b1s : list N).
  Definition sim_hist (v : avst) (ms pms : list (N * N)) : ahist := (firstn (av_words v) ws, ms, pms).
  (** the check message that the verifier accepts, with second component [a1] *)
  Definition accepted (W ope a1 : N) : N * N := (add_mod (mult_mod a1 d) (add_mod W (lo64 ope)), a1).
  Definition asim_msg (v : avst) (ms pms : list (N * N)) : option (list (N * N)) :=
    match a_ranges threads (length (av_buf v)) with
    | None => None
    | Some rs => Some (ms ++ [accepted (a_ver_sum d (av_buf v) rs (F (sim_hist v ms pms))) (key (av_vole v))
                                       (nth (length ms) a1s 0%N)])
    end.
  Definition asim_pmsg (v : avst) (ms pms : list (N * N)) : list (N * N) :=
    match av_poly v with
    | [] => pms
    | q => let chi := uni_hash_coeff_gen (mod1 (G (sim_hist v ms pms))) (length q) in
           pms ++ [accepted (vector_inn_prdt_sum_red chi q) (key (av_vole v)) (nth (length pms) b1s 0%N)]
    end.
  Definition asim_ver (v : avst) (g : agate) : option avst :=
    av_step pub_mac key d threads csz psz (fun _ _ => 0%N) (fun _ => 0%N) (fun k => nth k ws 0%N)
      (fun _ => (0, 0)%N) (fun _ => (0, 0)%N) v g.
  Definition asim_step (st : avst * list (N * N) * list (N * N)) (g : agate) :=
    let '(v, ms, pms) := st in
    match (match g with
           | AMul _ _ => if Nat.eqb (length (av_buf v)) csz then asim_msg v ms pms else Some ms
           | _ => Some ms
           end), asim_ver v g with
    | Some ms', Some v' =>
        Some (v', ms', match g with
                       | APoly _ _ _ | AInner _ _ _ =>
                           if Nat.leb psz (length (av_poly v)) then asim_pmsg v ms pms else pms
                       | _ => pms
                       end)
    | _, _ => None
    end.
  Fixpoint asim_run (st : avst * list (N * N) * list (N * N)) (c : list agate) :=
    match c with
    | [] => Some st
    | g :: c' => match asim_step st g with None => None | Some st' => asim_run st' c' end
    end.
  Definition asim_exec (c : list agate) : option aview_t :=
    match asim_run (av_init, [], []) c with
    | None => None
    | Some (v, ms, pms) =>
        let pms' := asim_pmsg v ms pms in
        let v1 := av_batch key d (fun _ => 0%N) (fun _ => (0, 0)%N) v in
        match av_buf v1 with
        | [] => Some (ws, ms, pms', av_hash v1)
        | _ => match asim_msg v1 ms pms' with
               | None => None
               | Some ms' => Some (ws, ms', pms', av_hash v1)
               end
        end
    end.
End Session.
Definition asimulate (pub_mac : N) (key : nat -> N) (d : N) (threads csz psz : nat)
           (F : ahist -> nat -> N) (G : ahist -> N) (c : list agate) (outs r : list N) : option aview_t :=
  let m := acount_in c + acount_mul c in
  let k := checks csz (acount_mul c) in
  asim_exec pub_mac key d threads csz psz F G (aweave c (firstn m r) outs)
    (firstn k (skipn m r)) (skipn k (skipn m r)) c.

(** fixed verifier half: canonical keys and Delta; a valid witness satisfies every queried relation *)
Definition akeys_ok (key : nat -> N) (d : N) : Prop := (forall i, canon (key i)) /\ canon d.
Definition asession_ok (threads csz psz : nat) (c : list agate) : Prop :=
  1 <= threads <= 32 /\ 1 <= csz /\ 1 <= psz /\ Forall wf_pub c /\
  Forall (fun g => match g with ACheck _ e => canon e | _ => True end) c.
Definition witness (c : list agate) (ins outs : list N) : Prop :=
  length ins = acount_in c /\ Forall canon ins /\
  pl_ok (aplain (awith_inputs ins c)) = true /\ pl_outs (aplain (awith_inputs ins c)) = outs.
