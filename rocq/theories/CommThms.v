(** The bytes sent by the honest prover are a function of the shape of the program. *)
From Coq Require Import NArith List Bool Arith Lia.
From Verif Require Import Word FpModel ArithModel BoolModel BoolIOModel BoolPolyModel BoolPolySpec BSessModel WireModel WireProofs BWireModel BWireSpec AWireModel AWireProofs XWireModel CommSpec CommProofs.
From Verif Require AWireHide.
Import ListNotations.

Section Prog.
  Variables (r0 r1 : N) (pM : nat -> N) (threads csz psz : nat) (ope : nat -> list N) (G : list N -> nat -> N) (H : list N -> list N).
  Variables (pub_mac : N) (pV : nat -> N) (acsz apsz : nat) (AG : N -> nat -> N) (AH : list N -> list N) (NB : nat).
  Hypothesis HH : forall l, length (H l) = 32.
  Hypothesis HAH : forall l, length (AH l) = 32.
  Hypothesis Hcsz : 1 <= csz.
  Hypothesis Hpsz : 1 <= psz.
  Hypothesis Hacsz : 1 <= acsz.
  Notation cost := (costs NB).
  Notation com := (comm NB csz psz acsz apsz).
  Notation prog_of := (xprv_prog r0 r1 pM threads csz psz ope G H pub_mac pV acsz apsz AG AH).
  Lemma items_nrel (f : nat -> N) c : length (prv_items (bcall_map f c)) = nrel c.
  Proof. destruct c; cbn [bcall_map prv_items nrel]; rewrite ?map_length, ?seq_length; reflexivity. Qed.
  Lemma cost_eq {R} (P : proc (option R)) ptr n n' : n = n' -> cost P ptr n -> cost P ptr n'.
  Proof. now intros ->. Qed.
  Lemma c_digest {R} x (P : proc (option R)) ptr n : length x = 32 -> cost P 0 n -> cost (PAlign true (PPut x P)) ptr (fl NB ptr + 32 + n).
  Proof. intros L C. cbn [costs]. exists (32 + n). split; [lia|]. exists n. split; [lia|exact C]. Qed.
  Lemma c_bool_end {R} s (k : bprv -> proc (option R)) ptr n : (forall s', cost (k s') 0 n) ->
    cost (xp_bool_end pM threads ope G H s k) ptr (fl NB ptr + some (length (pp_buf (bp_poly s))) 32 + some (length (p_buf (bp_gates s))) 32 + 32 + n).
  Proof.
    intro K. unfold xp_bool_end.
    assert (D : forall q ptr, cost (let dig g := PAlign true (PPut (H (p_hash g)) (k {| bp_gates := g; bp_poly := q |})) in
        match p_buf (bp_gates s) with [] => dig (bp_gates s) | _ => prv_check_prog pM threads G (bp_gates s) dig end) ptr
        (fl NB ptr + some (length (p_buf (bp_gates s))) 32 + 32 + n)).
    { intros q pt. cbv zeta. destruct (p_buf (bp_gates s)) as [|i l] eqn:E.
      - eapply cost_eq; [|apply c_digest; [apply HH|apply K]]. cbn. lia.
      - eapply cost_eq; [|eapply c_and_check; intros s' _; apply (c_digest _ _ _ n); [apply HH|apply K]]. cbn. lia. }
    destruct (pp_buf (bp_poly s)) as [|i l] eqn:E.
    - unfold prel_check. rewrite E. eapply cost_eq; [|apply D]. cbn. lia.
    - eapply cost_eq; [|eapply c_rel; [rewrite E; discriminate|intros s' _; apply D]]. rewrite fl0. cbn [some length Nat.eqb]. lia.
  Qed.
  Lemma c_arith_end {R} s (k : apst -> proc (option R)) n : (forall s', cost (k s') 0 n) ->
    cost (xp_arith_end threads pV AG AH s k) 0 (some (length (ap_poly s)) 16 + some (length (ap_buf s)) 16 + 32 + n).
  Proof.
    intro K. unfold xp_arith_end. cbv zeta.
    assert (D : forall s' : apst, length (ap_buf s') = length (ap_buf s) -> cost (match ap_buf s' with [] => PAlign true (PPut (AH (ap_hash s')) (k s')) | _ =>
        xp_check threads pV AG s' (fun s => PAlign true (PPut (AH (ap_hash s)) (k s))) end) 0 (some (length (ap_buf s)) 16 + 32 + n)).
    { intros s' L. rewrite <- L. destruct (ap_buf s') as [|i l] eqn:E.
      - eapply cost_eq; [|apply c_digest; [apply HAH|apply K]]. reflexivity.
      - eapply cost_eq; [|eapply c_mul_check; intros s2 _ _; apply (c_digest _ _ _ n); [apply HAH|apply K]]. cbn. lia. }
    destruct (ap_poly s) as [|i l] eqn:E.
    - eapply cost_eq; [|apply D; reflexivity]. reflexivity.
    - eapply cost_eq; [|eapply c_batch; [rewrite E; discriminate|intros s' L _; now apply D]]. cbn. lia.
  Qed.
  Lemma comm_cost prog : forall s ptr,
    cost (prog_of s prog) ptr (com ptr (length (p_buf (bp_gates (xp_b s)))) (length (pp_buf (bp_poly (xp_b s)))) (length (ap_buf (xp_a s))) (length (ap_poly (xp_a s))) prog).
  Proof.
    induction prog as [|o prog IH]; intros [[sg sq] sa got] ptr; cbn [xp_b xp_a xp_got bp_gates bp_poly].
    - cbn [xprv_prog comm]. eapply cost_eq; [|apply (c_bool_end _ _ _ (some (length (ap_poly sa)) 16 + some (length (ap_buf sa)) 16 + 32 + 0))].
      { cbn [bp_gates bp_poly xp_b]. lia. }
      intro b. apply c_arith_end. intro a. cbn [costs]. exists 0. auto.
    - assert (IHs : forall g q a got ptr gl ql ml pl, length (p_buf g) = gl -> length (pp_buf q) = ql -> length (ap_buf a) = ml -> length (ap_poly a) = pl ->
        cost (prog_of {| xp_b := {| bp_gates := g; bp_poly := q |}; xp_a := a; xp_got := got |} prog) ptr (com ptr gl ql ml pl prog)).
      { intros g q a gt pt gl ql ml pl <- <- <- <-. exact (IH {| xp_b := {| bp_gates := g; bp_poly := q |}; xp_a := a; xp_got := gt |} pt). }
      clear IH. destruct o as [[g|c]|g|[] x|]; cbn [xprv_prog xp_b xp_a xp_got].
      + unfold xp_bool. cbn [bp_gates bp_poly]. cbv zeta.
        destruct (full csz g (length (p_buf sg))) eqn:F.
        * destruct g; cbn [full] in F; try discriminate F. cbn [comm]. rewrite F. eapply c_and_check. intros s1 L1.
          eapply cost_eq; [|eapply (c_gate r0 r1 pM threads csz NB (p_clear s1)); [cbn; destruct csz; [lia|reflexivity]|intros s2 L2; apply (IHs s2 sq sa got _ 1); [exact L2|reflexivity..]]].
          reflexivity.
        * assert (X : forall n, (forall s2, length (p_buf s2) = length (p_buf sg) + match g with GAnd _ _ => 1 | _ => 0 end ->
              cost (prog_of {| xp_b := {| bp_gates := s2; bp_poly := sq |}; xp_a := sa; xp_got := got |} prog) (if sends g then bit_next NB ptr else ptr) n) ->
              cost (prv_gate r0 r1 pM threads csz sg g (fun p => prog_of {| xp_b := {| bp_gates := p; bp_poly := sq |}; xp_a := sa; xp_got := got |} prog)) ptr
                ((if sends g then bit_bytes NB ptr else 0) + n)).
          { intros n K. apply c_gate; assumption. }
          destruct g; cbn [full] in F; cbn [comm sends] in *; rewrite ?F; apply X; intros s2 L2; apply IHs; try reflexivity; rewrite L2; lia.
      + unfold xp_bool. cbn [bp_gates bp_poly comm].
        pose proof (c_items pM psz ope G pV AG NB Hpsz (prv_items (bcall_map (wire (p_wires sg)) c)) sq
          (fun q => prog_of {| xp_b := {| bp_gates := sg; bp_poly := q |}; xp_a := sa; xp_got := got |} prog) ptr) as X.
        rewrite items_nrel in X. destruct (rels psz (nrel c) (length (pp_buf sq))) as [ch q'].
        apply X. intros s2 L2. now apply IHs.
      + unfold xp_arith. destruct (a_full acsz g (length (ap_buf sa))) eqn:F.
        * destruct g; cbn [a_full] in F; try discriminate F. cbn [comm]. rewrite F. eapply c_mul_check. intros s1 _ L1.
          eapply cost_eq; [|eapply c_agate; [cbn; destruct acsz; [lia|reflexivity]|reflexivity|
            intros s2 L2 L3; apply (IHs sg sq s2 got _ (length (p_buf sg)) (length (pp_buf sq)) 1 (length (ap_poly sa))); [reflexivity|reflexivity|exact L2|rewrite L3; cbn; exact L1]]].
          cbn [a_sends]. rewrite fl0. reflexivity.
        * destruct (a_pfull apsz g (length (ap_poly sa))) eqn:Fp.
          -- assert (Ne : ap_poly sa <> []) by (intro Z; rewrite Z in Fp; destruct g; cbn in Fp; rewrite ?andb_false_r in Fp; discriminate).
             destruct g; cbn [a_pfull] in Fp; try discriminate Fp; cbn [comm]; rewrite Fp; eapply c_batch; try exact Ne; intros s1 L1 E1;
               (eapply cost_eq; [|eapply c_agate; [reflexivity|cbn; rewrite E1; cbn; now rewrite andb_false_r|
                 intros s2 L2 L3; apply (IHs sg sq s2 got _ (length (p_buf sg)) (length (pp_buf sq)) (length (ap_buf sa)) 1); [reflexivity|reflexivity|rewrite L2; exact L1|rewrite L3, E1; reflexivity]]]; reflexivity).
          -- assert (X : forall n, (forall s2, length (ap_buf s2) = AWireHide.g_mul g + length (ap_buf sa) -> length (ap_poly s2) = AWireHide.g_rel g + length (ap_poly sa) ->
                cost (prog_of {| xp_b := {| bp_gates := sg; bp_poly := sq |}; xp_a := s2; xp_got := got |} prog) (if a_sends g then 0 else ptr) n) ->
                cost (xp_gate threads pub_mac pV acsz apsz sa g (fun a => prog_of {| xp_b := {| bp_gates := sg; bp_poly := sq |}; xp_a := a; xp_got := got |} prog)) ptr
                  ((if a_sends g then fl NB ptr + 8 else 0) + n)).
             { intros n K. apply c_agate; assumption. }
             destruct g; cbn [a_full a_pfull] in F, Fp; cbn [comm a_sends] in *; rewrite ?F, ?Fp; apply X; intros s2 L2 L3; cbn in L2, L3; apply IHs; try reflexivity; assumption.
      + cbn [costs comm]. exists (length x + com 0 (length (p_buf sg)) (length (pp_buf sq)) (length (ap_buf sa)) (length (ap_poly sa)) prog). split; [lia|].
        eexists. split; [reflexivity|]. now apply IHs.
      + cbn [costs comm]. eexists. split; [reflexivity|]. intro y. now apply IHs.
      + cbn [costs comm]. eexists. split; [reflexivity|]. now apply IHs.
  Qed.
End Prog.
