(** Hiding over the channel for the arithmetic engine: the verifier's whole view does not depend on the witness, provided the batch
    challenges it sends are reduced. *)
From Coq Require Import NArith List Bool Arith Lia.
From Verif Require Import Word WordProofs FpModel FpProofs ArithModel ArithSpec AHideSpec AHideThms2 WireModel WireProofs BoolIOSpec BoolIOThms BWireHide AWireModel AWireNet AWireProofs AWireAny
  BWireHideSpec AWireHideSpec.
Import ListNotations.

(** * Two provers that follow the same list of actions *)
Inductive aop : Type := OPut (bs : list N) | OGet (t : site) (x : list N) | OFlush.
Fixpoint afollow {R : Type} (P : aproc R) (l : list aop) (res : R) : Prop :=
  match l with
  | [] => P = QDone res
  | OPut bs :: l' => exists k, P = QPut bs k /\ afollow k l' res
  | OGet t x :: l' => exists k, P = QGet t (length x) k /\ x <> [] /\ afollow (k x) l' res
  | OFlush :: l' => exists k, P = QFlush k /\ afollow k l' res
  end.
Fixpoint gets (l : list aop) : list (site * list N) :=
  match l with [] => [] | OGet t x :: l' => (t, x) :: gets l' | _ :: l' => gets l' end.
Lemma gets_app a b : gets (a ++ b) = gets a ++ gets b.
Proof. induction a as [|[] a IH]; cbn; rewrite ?IH; reflexivity. Qed.

Section Lock.
  Variables (auto : bool) (coins : bool -> nat -> N).
  Context {RP RV : Type}.
  Variables (P P' : aproc RP) (V : aproc RV) (L : list aop) (res res' : RP) (logF : list (site * list N)).
  Hypothesis FP : afollow P L res.
  Hypothesis FP' : afollow P' L res'.
  Hypothesis Hrd : forall l t x x' r, gets L = l ++ (t, x') :: r -> prefix (l ++ [(t, x)]) logF -> length x = length x' -> x = x'.
  Definition alock (log : list (site * list N)) (n n' : @anet RP RV) : Prop :=
    m_ps n' = m_ps n /\ m_v n' = m_v n /\ m_vs n' = m_vs n /\ m_pv n' = m_pv n /\ m_vp n' = m_vp n /\ m_reads n' = m_reads n /\
    m_c0 n' = m_c0 n /\ m_c1 n' = m_c1 n /\
    exists l, afollow (m_p n) l res /\ afollow (m_p n') l res' /\ gets L = log ++ gets l.
  (** one step of the prover *)
  Lemma p_move log l Q Q' ps vp Q1 ps1 o vp1 r : afollow Q l res -> afollow Q' l res' -> gets L = log ++ gets l ->
    aact auto Q ps vp = Some (Q1, ps1, o, vp1, r) ->
    let rd := match Q with QGet t len _ => if Nat.ltb (length vp1) (length vp) then [(t, firstn len vp)] else [] | _ => [] end in
    prefix (log ++ rd) logF ->
    exists Q1', aact auto Q' ps vp = Some (Q1', ps1, o, vp1, r) /\
      (match Q' with QGet t len _ => if Nat.ltb (length vp1) (length vp) then [(t, firstn len vp)] else [] | _ => [] end) = rd /\
      exists l', afollow Q1 l' res /\ afollow Q1' l' res' /\ gets L = (log ++ rd) ++ gets l'.
  Proof.
    intros F F' E A rd D. destruct l as [|[bs|t x|] l]; cbn [afollow] in F, F'.
    - subst Q. discriminate A.
    - destruct F as (k & -> & F), F' as (k' & -> & F'). cbn [aact] in A. injection A as <- <- <- <- <-. exists k'. split; [reflexivity|]. split; [reflexivity|].
      exists l. unfold rd. rewrite app_nil_r. auto.
    - destruct F as (k & -> & Nx & F), F' as (k' & -> & _ & F'). cbn [aact] in *. destruct (auto && negb (is_nil ps)).
      + injection A as <- <- <- <- <-. eexists. split; [reflexivity|]. assert (Z : Nat.ltb (length vp) (length vp) = false) by apply Nat.ltb_irrefl.
        split; [reflexivity|]. exists (OGet t x :: l). unfold rd. rewrite Z, app_nil_r. cbn [afollow]. eauto 10.
      + destruct (Nat.ltb_spec (length vp) (length x)) as [|Hl]; [discriminate|]. injection A as <- <- <- <- <-.
        assert (Z : Nat.ltb (length (skipn (length x) vp)) (length vp) = true).
        { apply Nat.ltb_lt. rewrite skipn_length. destruct x; [congruence|]. cbn [length] in *. lia. }
        unfold rd in D. rewrite Z in D. cbn [gets] in E.
        assert (X : firstn (length x) vp = x). { apply (Hrd log t _ x (gets l) E D). rewrite firstn_length. lia. }
        eexists. split; [reflexivity|]. split; [reflexivity|]. exists l. unfold rd. rewrite Z, X, <- app_assoc. auto.
    - destruct F as (k & -> & F), F' as (k' & -> & F'). cbn [aact] in A. injection A as <- <- <- <- <-. exists k'. split; [reflexivity|]. split; [reflexivity|].
      exists l. unfold rd. rewrite app_nil_r. auto.
  Qed.
  Lemma alock_run k : forall log n, lsteps auto coins k log (m_init P V) n -> prefix log logF ->
    exists n', lsteps auto coins k log (m_init P' V) n' /\ alock log n n'.
  Proof.
    assert (G0 : forall (a b : list N), Nat.ltb (length (a ++ b)) (length a) = false) by (intros; apply Nat.ltb_ge; rewrite app_length; lia).
    assert (Gx : forall (Q : aproc RP) a b, match Q with QGet t len _ => if Nat.ltb (length (a ++ b)) (length a) then [(t, firstn len a)] else [] | _ => [] end = @nil (site * list N))
      by (intros [] ? ?; rewrite ?G0; reflexivity).
    assert (Gy : forall (Q : aproc RP) (a : list N), match Q with QGet t len _ => if Nat.ltb (length a) (length a) then [(t, firstn len a)] else [] | _ => [] end = @nil (site * list N))
      by (intros [] ?; rewrite ?Nat.ltb_irrefl; reflexivity).
    induction k as [|k IH]; intros log n Hn D; inversion Hn as [c Hc|k' l c1 n1 c2 Hn1 St]; subst.
    - eexists. split; [constructor|]. repeat (split; [reflexivity|]). exists L. cbn. auto.
    - assert (D1 : prefix l logF) by (eapply prefix_trans; [eexists; reflexivity|exact D]).
      destruct (IH l n1 Hn1 D1) as ([Q' W' ps' vs' pv' vp' rd' c0' c1'] & R & E1 & E2 & E3 & E4 & E5 & E6 & E7 & E8 & a & F1 & F2 & Eg).
      destruct St as [n1 n2 St|Q W x y vs pv vp rd c0 c1 Hx|Q W ps x y pv vp rd c0 c1 Hx].
      + destruct St as [Q W ps vs pv vp rd c0 c1 Q1 ps1 o vp1 r A|Q W ps vs pv vp rd c0 c1 W1 vs1 o pv1 r A|Q kk ps vs pv vp rd c0 c1|Q kk ps vs pv vp rd c0 c1];
          cbn [m_p m_v m_ps m_vs m_pv m_vp m_reads m_c0 m_c1] in *; subst.
        * unfold prover_reads in D |- *. cbn [m_p m_vp] in D |- *.
          destruct (p_move l a Q Q' ps vp Q1 ps1 o vp1 r F1 F2 Eg A D) as (Q1' & A' & Er & a' & K1 & K2 & K3).
          eexists. split; [|].
          { rewrite <- Er. eapply (LTrans auto coins k l _ {| m_p := Q'; m_v := W; m_ps := ps; m_vs := vs; m_pv := pv; m_vp := vp; m_reads := rd; m_c0 := c0; m_c1 := c1 |}
              {| m_p := Q1'; m_v := W; m_ps := ps1; m_vs := vs; m_pv := pv ++ o; m_vp := vp1; m_reads := rd; m_c0 := c0; m_c1 := c1 |}); [exact R|].
            apply MProg, (MP auto coins _ _ _ _ _ _ _ _ _ _ _ _ _ _ A'). }
          repeat (split; [reflexivity|]). exists a'. auto.
        * unfold prover_reads. cbn [m_p m_vp]. rewrite Gx, app_nil_r.
          eexists. split; [pose proof (LTrans auto coins k l _ _ _ R (MProg _ _ _ _ (MV auto coins Q' _ ps _ _ vp rd c0 c1 _ _ _ _ _ A))) as X; unfold prover_reads in X; cbn [m_p m_vp] in X; rewrite Gx, app_nil_r in X; exact X|].
          repeat (split; [reflexivity|]). exists a. auto.
        * unfold prover_reads. cbn [m_p m_vp]. rewrite Gy, app_nil_r.
          eexists. split; [pose proof (LTrans auto coins k l _ _ _ R (MProg _ _ _ _ (MC0 auto coins Q' kk ps vs pv vp rd c0 c1))) as X; unfold prover_reads in X; cbn [m_p m_vp] in X; rewrite Gy, app_nil_r in X; exact X|].
          repeat (split; [reflexivity|]). exists a. auto.
        * unfold prover_reads. cbn [m_p m_vp]. rewrite Gy, app_nil_r.
          eexists. split; [pose proof (LTrans auto coins k l _ _ _ R (MProg _ _ _ _ (MC1 auto coins Q' kk ps vs pv vp rd c0 c1))) as X; unfold prover_reads in X; cbn [m_p m_vp] in X; rewrite Gy, app_nil_r in X; exact X|].
          repeat (split; [reflexivity|]). exists a. auto.
      + cbn [m_p m_v m_ps m_vs m_pv m_vp m_reads m_c0 m_c1] in *; subst. unfold prover_reads. cbn [m_p m_vp]. rewrite Gy, app_nil_r.
        eexists. split; [pose proof (LTrans auto coins k l _ _ _ R (MDP auto coins Q' W x y vs pv vp rd c0 c1 Hx)) as X; unfold prover_reads in X; cbn [m_p m_vp] in X; rewrite Gy, app_nil_r in X; exact X|].
        repeat (split; [reflexivity|]). exists a. auto.
      + cbn [m_p m_v m_ps m_vs m_pv m_vp m_reads m_c0 m_c1] in *; subst. unfold prover_reads. cbn [m_p m_vp]. rewrite Gx, app_nil_r.
        eexists. split; [pose proof (LTrans auto coins k l _ _ _ R (MDV auto coins Q' W ps x y pv vp rd c0 c1 Hx)) as X; unfold prover_reads in X; cbn [m_p m_vp] in X; rewrite Gx, app_nil_r in X; exact X|].
        repeat (split; [reflexivity|]). exists a. auto.
  Qed.
End Lock.

(** * The actions of the honest prover *)
Lemma some_pair {A B} (a c : A) (b d : B) : Some (a, b) = Some (c, d) -> a = c /\ b = d.
Proof. intro E. injection E as -> ->. auto. Qed.
Section Sched.
  Variables (pub_mac : N) (pV : nat -> N) (threads csz psz : nat) (G : N -> nat -> N) (H : list N -> list N).
  (** the challenges: [cb] of the multiplication checks, [pb] of the relation proofs *)
  Variables (cb pb : nat -> N).
  Hypothesis Hth : 1 <= threads <= 32.
  Hypothesis Hcsz : 1 <= csz.
  Hypothesis Hcb : forall j, (cb j < 2 ^ 128)%N.
  Hypothesis Hpb : forall j, (pb j < prm)%N.
  Definition chal (h : ahist) : nat -> N := G (cb (length (snd (fst h)))).
  Definition pchal (h : ahist) : N := pb (length (snd h)).
  Notation man s := (ap_manage pV threads (fun _ => chal (hist s)) s).
  Notation bat s := (ap_batch pV (fun _ => pchal (hist s)) s).
  Notation stp := (ap_step pub_mac pV threads csz psz (fun _ _ => 0%N) (fun _ => 0%N)).
  Definition check_ops (s s1 : apst) : list aop :=
    [OFlush; OFlush; OGet AtSeed (enc_block (cb (length (ap_msgs s)))); OFlush; OPut (enc_pair (last (ap_msgs s1) (0, 0)%N)); OFlush].
  Definition batch_ops (s s1 : apst) : list aop :=
    [OFlush; OFlush; OGet AtPSeed (enc64 (pb (length (ap_pmsgs s)))); OPut (enc_pair (last (ap_pmsgs s1) (0, 0)%N))].
  Definition word_ops (g : agate) (s : apst) : list aop := if a_sends g then [OPut (enc64 (last (ap_words s) 0%N))] else [].
  Definition fin_ops (s : apst) : list aop := [OPut (H (ap_hash s)); OFlush].
  Definition pre_ops (s : apst) (g : agate) : option (list aop * apst) :=
    if a_full csz g (length (ap_buf s)) then match man s with None => None | Some s1 => Some (check_ops s s1, ap_clear s1) end
    else if a_pfull psz g (length (ap_poly s)) then Some (batch_ops s (bat s), bat s) else Some ([], s).
  Definition end_ops (s : apst) : option (list aop * apst) :=
    match ap_buf s with [] => Some (fin_ops s, s) | _ => match man s with None => None | Some s1 => Some (check_ops s s1 ++ fin_ops s1, s1) end end.
  Fixpoint asched (s : apst) (c : list agate) : option (list aop * apst) :=
    match c with
    | [] => match ap_poly s with
            | [] => end_ops s
            | _ => match end_ops (bat s) with None => None | Some (os, p) => Some (batch_ops s (bat s) ++ os, p) end
            end
    | g :: c' =>
        match pre_ops s g with
        | None => None
        | Some (o1, s1) => match stp s1 g with
                           | None => None
                           | Some s2 => match asched s2 c' with None => None | Some (os, p) => Some (o1 ++ word_ops g s2 ++ os, p) end
                           end
        end
    end.

  (** the message-level run *)
  Notation hrun := (ah_run pub_mac threads csz psz chal pchal pV).
  Notation hstep := (ah_step pub_mac threads csz psz chal pchal pV).
  Notation hfin := (ah_final threads chal pchal pV).
  Lemma hstep_pre s g : hstep s g = match pre_ops s g with None => None | Some (_, s1) => stp s1 g end.
  Proof.
    unfold ah_step, pre_ops. set (F := chal (hist s)). set (x := pchal (hist s)).
    pose proof (p_full pub_mac pV threads csz psz (fun _ => F) (fun _ _ => x) Hcsz s g) as A.
    pose proof (p_pfull pub_mac pV threads csz psz (fun _ => F) (fun _ _ => x) s g) as B. cbn beta in A, B.
    destruct (a_full csz g (length (ap_buf s))) eqn:E1.
    - rewrite (A eq_refl). destruct (ap_manage pV threads (fun _ => F) s) as [s1|]; [|reflexivity].
      apply ap_gate_step; [now apply clear_full|]. destruct g; try discriminate; reflexivity.
    - destruct (a_pfull psz g (length (ap_poly s))) eqn:E2.
      + rewrite (B eq_refl). apply ap_gate_step; [eapply pfull_not; eauto|]. apply (bat_pfull pV psz (fun _ _ => x)).
      + now apply ap_gate_step.
  Qed.
  Lemma hfin_end s : hfin s = match end_ops (bat s) with None => None | Some (_, p) => Some p end.
  Proof.
    unfold ah_final, end_ops. cbv zeta. destruct (ap_buf (bat s)); [reflexivity|]. destruct (ap_manage _ _ _ _); reflexivity.
  Qed.
  Lemma asched_run c : forall s p, match hrun s c with None => None | Some s1 => hfin s1 end = Some p -> exists os, asched s c = Some (os, p).
  Proof.
    induction c as [|g c IH]; intros s p E; cbn [ah_run asched] in *.
    - rewrite hfin_end in E. destruct (ap_poly s) eqn:Ep.
      + unfold ap_batch in E. rewrite Ep in E. destruct (end_ops s) as [[os q]|]; [|discriminate]. injection E as ->. eauto.
      + destruct (end_ops (bat s)) as [[os q]|]; [|discriminate]. injection E as ->. eauto.
    - rewrite hstep_pre in E. destruct (pre_ops s g) as [[o1 s1]|]; [|discriminate]. destruct (stp s1 g) as [s2|]; [|discriminate].
      destruct (IH _ _ E) as [os ->]. eauto.
  Qed.

  (** ** the program performs them *)
  Notation prog := (ap_prog pub_mac pV threads csz psz G H).
  Lemma block_ne x : enc_block x <> []. Proof. intro E. pose proof (enc_block_len x) as L. rewrite E in L. discriminate. Qed.
  Lemma enc64_ne x : enc64 x <> []. Proof. intro E. pose proof (enc64_len x) as L. rewrite E in L. discriminate. Qed.
  Lemma check_follow s s1 k l res : man s = Some s1 -> afollow (k s1) l res -> afollow (ap_check_prog pV threads G s k) (check_ops s s1 ++ l) res.
  Proof.
    intros E F. unfold ap_check_prog, s_recv, check_ops. cbn [app afollow]. rewrite enc_block_len.
    eexists. split; [reflexivity|]. eexists. split; [reflexivity|]. eexists. split; [reflexivity|]. split; [apply block_ne|].
    eexists. split; [reflexivity|]. rewrite dec_enc by apply Hcb.
    assert (E' : ap_manage pV threads (fun _ => G (cb (length (ap_msgs s)))) s = Some s1) by exact E. rewrite E'.
    eexists. split; [reflexivity|]. eexists. split; [reflexivity|]. exact F.
  Qed.
  Lemma mod1_small x : (x < prm)%N -> mod1 x = x.
  Proof.
    intro Hx. change prm with PR in Hx. unfold mod1. cbv zeta. rewrite land_PR, N.mod_small by (clear - Hx; unfold PR in Hx; lia). 
    assert (Z : shr64 x EXP61 = 0%N) by (unfold shr64; rewrite N.shiftr_div_pow2; apply N.div_small; unfold EXP61, PR in *; eapply N.lt_trans; [exact Hx|reflexivity]).
    rewrite Z, add64_small by (clear - Hx; unfold PR, W64 in *; lia). rewrite N.add_0_r. destruct (N.leb_spec PR x) as [l|l]; [clear - Hx l; lia|reflexivity].
  Qed.
  Lemma batch_follow s k l res : afollow (k (bat s)) l res -> afollow (ap_batch_prog pV s k) (batch_ops s (bat s) ++ l) res.
  Proof.
    intros F. unfold ap_batch_prog, s_recv, batch_ops. cbn [app afollow]. rewrite enc64_len.
    eexists. split; [reflexivity|]. eexists. split; [reflexivity|]. eexists. split; [reflexivity|]. split; [apply enc64_ne|].
    assert (Hj : (pb (length (ap_pmsgs s)) < prm)%N) by apply Hpb.
    rewrite dec_enc64 by (clear - Hj; change prm with PR in Hj; unfold PR in Hj; lia). cbv zeta.
    assert (E : ap_batch_seed pV (pb (length (ap_pmsgs s))) s = bat s).
    { unfold ap_batch_seed, ap_batch, pchal, hist. cbn [snd]. rewrite (mod1_small _ Hj). reflexivity. }
    rewrite E. eexists. split; [reflexivity|exact F].
  Qed.
  Lemma end_follow s os p : end_ops s = Some (os, p) -> afollow (ap_end pV threads G H s) os (Some p).
  Proof.
    assert (Fin : forall s, afollow (ap_fin H s) (fin_ops s) (Some s)) by (intro; eexists; split; [reflexivity|]; eexists; split; reflexivity).
    unfold end_ops, ap_end. destruct (ap_buf s); [intro E; apply some_pair in E; destruct E as [<- <-]; apply Fin|].
    destruct (man s) as [s1|] eqn:Em; [|discriminate]. intro E. apply some_pair in E. destruct E as [<- <-]. apply check_follow; [exact Em|apply Fin].
  Qed.
  Lemma gate_follow s g s2 k l res : stp s g = Some s2 -> afollow (k s2) l res -> afollow (ap_gate pub_mac pV threads csz psz s g k) (word_ops g s2 ++ l) res.
  Proof. intros E F. unfold ap_gate, word_ops. rewrite E. destruct (a_sends g); [cbn; eauto|exact F]. Qed.
  Lemma asched_follow c : forall s os p, asched s c = Some (os, p) -> afollow (prog s c) os (Some p).
  Proof.
    induction c as [|g c IH]; intros s os p E; cbn [asched ap_prog] in *.
    - destruct (ap_poly s); [now apply end_follow|]. destruct (end_ops (bat s)) as [[o q]|] eqn:Ee; [|discriminate].
      apply some_pair in E. destruct E as [<- <-]. apply batch_follow. now apply end_follow.
    - unfold pre_ops in E. destruct (a_full csz g (length (ap_buf s))); [|destruct (a_pfull psz g (length (ap_poly s)))].
      + destruct (man s) as [s1|] eqn:Em; [|discriminate]. destruct (stp (ap_clear s1) g) as [s2|] eqn:Es; [|discriminate].
        destruct (asched s2 c) as [[o q]|] eqn:Ee; [|discriminate]. apply some_pair in E. destruct E as [<- <-].
        apply check_follow; [exact Em|]. eapply gate_follow; [exact Es|]. now apply IH.
      + destruct (stp (bat s) g) as [s2|] eqn:Es; [|discriminate]. destruct (asched s2 c) as [[o q]|] eqn:Ee; [|discriminate].
        apply some_pair in E. destruct E as [<- <-]. apply batch_follow. eapply gate_follow; [exact Es|]. now apply IH.
      + destruct (stp s g) as [s2|] eqn:Es; [|discriminate]. destruct (asched s2 c) as [[o q]|] eqn:Ee; [|discriminate].
        apply some_pair in E. destruct E as [<- <-]. cbn [app]. eapply gate_follow; [exact Es|]. now apply IH.
  Qed.

  (** ** sizes and prefixes along a run *)
  Lemma man_sizes s s1 : man s = Some s1 -> length (ap_buf s1) = length (ap_buf s) /\ length (ap_poly s1) = length (ap_poly s) /\
    length (ap_words s1) = length (ap_words s) /\ length (ap_msgs s1) = S (length (ap_msgs s)) /\ length (ap_pmsgs s1) = length (ap_pmsgs s).
  Proof.
    unfold ap_manage. destruct (a_ranges threads (length (ap_buf s))); [|discriminate]. intro E. injection E as <-.
    cbn [ap_buf ap_poly ap_words ap_msgs ap_pmsgs]. rewrite app_length. cbn [length]. repeat split; clear; lia.
  Qed.
  Lemma bat_sizes s : ap_poly s <> [] -> length (ap_buf (bat s)) = length (ap_buf s) /\ length (ap_poly (bat s)) = 0 /\
    length (ap_words (bat s)) = length (ap_words s) /\ length (ap_msgs (bat s)) = length (ap_msgs s) /\ length (ap_pmsgs (bat s)) = S (length (ap_pmsgs s)).
  Proof.
    unfold ap_batch. destruct (ap_poly s) eqn:E; [congruence|]. intros _. cbn [ap_buf ap_poly ap_words ap_msgs ap_pmsgs]. rewrite app_length. cbn [length]. repeat split; clear; lia.
  Qed.
  Definition g_mul (g : agate) : nat := match g with AMul _ _ => 1 | _ => 0 end.
  Definition g_rel (g : agate) : nat := match g with APoly _ _ _ | AInner _ _ _ => 1 | _ => 0 end.
  Lemma stp_sizes s g s2 : a_full csz g (length (ap_buf s)) = false -> a_pfull psz g (length (ap_poly s)) = false -> stp s g = Some s2 ->
    length (ap_buf s2) = g_mul g + length (ap_buf s) /\ length (ap_poly s2) = g_rel g + length (ap_poly s) /\
    length (ap_words s2) = (if a_sends g then 1 else 0) + length (ap_words s) /\ length (ap_msgs s2) = length (ap_msgs s) /\ length (ap_pmsgs s2) = length (ap_pmsgs s).
  Proof.
    intros F1 F2 E.
    assert (Q : forall t, (Nat.leb psz (length (ap_poly s)) && negb (length (ap_poly s) =? 0))%bool = false ->
      let s' := ap_queue pV psz (fun _ => 0%N) s t in ap_buf s' = ap_buf s /\ ap_poly s' = ap_poly s ++ [t] /\ ap_words s' = ap_words s /\ ap_msgs s' = ap_msgs s /\ ap_pmsgs s' = ap_pmsgs s).
    { intros t Fx. unfold ap_queue. destruct (Nat.leb psz (length (ap_poly s))); cbn [andb] in Fx; cbv zeta; [|repeat split].
      destruct (ap_poly s) eqn:Ep; [|discriminate]. unfold ap_batch. rewrite Ep. cbn [ap_buf ap_poly ap_words ap_msgs ap_pmsgs]. rewrite Ep. repeat split. }
    destruct g; cbn [ap_step a_full a_pfull g_mul g_rel a_sends] in *; unfold a_prv_input, a_prv_mul, ap_precheck in E; rewrite ?F1 in E;
      try (injection E as <-; cbn [ap_buf ap_poly ap_words ap_msgs ap_pmsgs ap_add ap_reveal]; rewrite ?app_length; cbn [length]; repeat split; clear; lia).
    - injection E as <-. destruct (Q (poly_prv (awires (ap_w s) xs) (awires (ap_w s) ys) coeff) F2) as (-> & -> & -> & -> & ->). rewrite app_length. cbn [length]. repeat split; clear; lia.
    - injection E as <-. destruct (Q (inner_prv (awires (ap_w s) xs) (awires (ap_w s) ys)) F2) as (-> & -> & -> & -> & ->). rewrite app_length. cbn [length]. repeat split; clear; lia.
  Qed.
  Lemma pre_room s g o1 s1 : pre_ops s g = Some (o1, s1) -> a_full csz g (length (ap_buf s1)) = false /\ a_pfull psz g (length (ap_poly s1)) = false.
  Proof.
    unfold pre_ops. destruct (a_full csz g (length (ap_buf s))) eqn:E1.
    - destruct (man s) as [s2|] eqn:Em; [|discriminate]. intro E. apply some_pair in E. destruct E as [_ <-]. split; [now apply clear_full|]. destruct g; try discriminate; reflexivity.
    - destruct (a_pfull psz g (length (ap_poly s))) eqn:E2; intro E; apply some_pair in E; destruct E as [_ <-]; [|auto].
      split; [eapply pfull_not; eauto|]. apply (bat_pfull pV psz (fun _ _ => pchal (hist s))).
  Qed.
  Lemma man_up s s1 : man s = Some s1 -> upto s s1.
  Proof. exact (man_upto pV threads (fun _ => chal (hist s)) (fun _ _ => 0%N) s s1). Qed.
  Lemma bat_up s : upto s (bat s).
  Proof. exact (bat_upto pV (fun _ _ => pchal (hist s)) s). Qed.
  Lemma stp_up s g s2 : stp s g = Some s2 -> upto s s2.
  Proof. exact (step_upto pub_mac pV threads csz psz (fun _ _ => 0%N) (fun _ _ => 0%N) s g s2). Qed.
  Lemma pre_up s g o1 s1 : pre_ops s g = Some (o1, s1) -> upto s s1.
  Proof.
    unfold pre_ops. destruct (a_full csz g (length (ap_buf s))).
    - destruct (man s) as [s2|] eqn:Em; [|discriminate]. intro E. apply some_pair in E. destruct E as [_ <-]. exact (man_up _ _ Em).
    - destruct (a_pfull psz g (length (ap_poly s))); intro E; apply some_pair in E; destruct E as [_ <-]; [apply bat_up|apply upto_refl].
  Qed.
  Lemma end_up s os p : end_ops s = Some (os, p) -> upto s p.
  Proof.
    unfold end_ops. destruct (ap_buf s); [intro E; apply some_pair in E; destruct E as [_ <-]; apply upto_refl|].
    destruct (man s) as [s1|] eqn:Em; [|discriminate]. intro E. apply some_pair in E. destruct E as [_ <-]. exact (man_up _ _ Em).
  Qed.
  Lemma asched_up c : forall s os p, asched s c = Some (os, p) -> upto s p.
  Proof.
    induction c as [|g c IH]; intros s os p E; cbn [asched] in E.
    - destruct (ap_poly s); [eapply end_up; eauto|]. destruct (end_ops (bat s)) as [[o q]|] eqn:Ee; [|discriminate].
      apply some_pair in E. destruct E as [_ <-]. eapply upto_trans; [apply bat_up|eapply end_up; eauto].
    - destruct (pre_ops s g) as [[o1 s1]|] eqn:Ep; [|discriminate]. destruct (stp s1 g) as [s2|] eqn:Es; [|discriminate].
      destruct (asched s2 c) as [[o q]|] eqn:Ee; [|discriminate]. apply some_pair in E. destruct E as [_ <-].
      eapply upto_trans; [eapply pre_up; eauto|]. eapply upto_trans; [eapply stp_up; eauto|]. eapply IH; eauto.
  Qed.

  (** ** what the prover reads: the challenges, each kind in order *)
  Fixpoint numbered (a b : nat) (l : list (site * list N)) : Prop :=
    match l with
    | [] => True
    | (AtSeed, x) :: l' => x = enc_block (cb a) /\ numbered (S a) b l'
    | (AtPSeed, x) :: l' => x = enc64 (pb b) /\ numbered a (S b) l'
    | _ => False
    end.
  Lemma gets_word g s : gets (word_ops g s) = []. Proof. unfold word_ops. now destruct (a_sends g). Qed.
  Lemma end_num s os p : end_ops s = Some (os, p) -> numbered (length (ap_msgs s)) (length (ap_pmsgs s)) (gets os).
  Proof.
    unfold end_ops. destruct (ap_buf s); [intro E; apply some_pair in E; destruct E as [<- _]; exact I|].
    destruct (man s) as [s1|] eqn:Em; [|discriminate]. intro E. apply some_pair in E. destruct E as [<- _]. cbn. auto.
  Qed.
  Lemma asched_num c : forall s os p, asched s c = Some (os, p) -> numbered (length (ap_msgs s)) (length (ap_pmsgs s)) (gets os).
  Proof.
    induction c as [|g c IH]; intros s os p E; cbn [asched] in E.
    - destruct (ap_poly s) eqn:Ep; [eapply end_num; eauto|]. destruct (end_ops (bat s)) as [[o q]|] eqn:Ee; [|discriminate].
      apply some_pair in E. destruct E as [<- _]. rewrite gets_app. cbn [batch_ops gets app numbered]. split; [reflexivity|].
      assert (Ne : ap_poly s <> []) by (rewrite Ep; discriminate). destruct (bat_sizes s Ne) as (_ & _ & _ & A & B). rewrite <- A, <- B. eapply end_num; eauto.
    - destruct (pre_ops s g) as [[o1 s1]|] eqn:Ep; [|discriminate]. destruct (stp s1 g) as [s2|] eqn:Es; [|discriminate].
      destruct (asched s2 c) as [[o q]|] eqn:Ee; [|discriminate]. apply some_pair in E. destruct E as [<- _]. rewrite !gets_app, gets_word. cbn [app].
      destruct (pre_room _ _ _ _ Ep) as [R1 R2]. destruct (stp_sizes _ _ _ R1 R2 Es) as (_ & _ & _ & A & B). specialize (IH _ _ _ Ee). rewrite A, B in IH.
      unfold pre_ops in Ep. destruct (a_full csz g (length (ap_buf s))).
      + destruct (man s) as [s3|] eqn:Em; [|discriminate]. apply some_pair in Ep. destruct Ep as [<- <-]. destruct (man_sizes _ _ Em) as (_ & _ & _ & C & D).
        cbn [ap_clear ap_msgs ap_pmsgs] in IH. rewrite C, D in IH. cbn. auto.
      + destruct (a_pfull psz g (length (ap_poly s))) eqn:Fp; apply some_pair in Ep; destruct Ep as [<- <-]; [|exact IH].
        assert (Ne : ap_poly s <> []).
        { intro Z. rewrite Z in Fp. destruct g; try discriminate; cbn [a_pfull length Nat.eqb negb] in Fp; rewrite andb_false_r in Fp; discriminate. }
        destruct (bat_sizes s Ne) as (_ & _ & _ & C & D). rewrite C, D in IH. cbn. auto.
  Qed.
End Sched.

(** * Two honest runs with the same messages perform the same actions *)
Definition agate_like (g g' : agate) : Prop := match g, g' with AIn _, AIn _ => True | _, _ => g = g' end.
Lemma ainputs_like c : forall ins ins', Forall2 agate_like (awith_inputs ins c) (awith_inputs ins' c).
Proof.
  induction c as [|g c IH]; intros ins ins'; cbn [awith_inputs]; [constructor|].
  destruct g; try (constructor; [cbn; reflexivity|apply IH]). destruct ins, ins'; (constructor; [cbn; auto|apply IH]).
Qed.
Section Same.
  Variables (pub_mac : N) (pV pV' : nat -> N) (threads csz psz : nat) (G : N -> nat -> N) (H : list N -> list N) (cb pb : nat -> N).
  Hypothesis Hcsz : 1 <= csz.
  Definition alike (s s' : apst) : Prop :=
    length (ap_buf s') = length (ap_buf s) /\ length (ap_poly s') = length (ap_poly s) /\ length (ap_words s') = length (ap_words s) /\
    length (ap_msgs s') = length (ap_msgs s) /\ length (ap_pmsgs s') = length (ap_pmsgs s).
  Lemma up_same s s' p p' : upto s p -> upto s' p' -> aview p = aview p' -> alike s s' ->
    ap_words s = ap_words s' /\ ap_msgs s = ap_msgs s' /\ ap_pmsgs s = ap_pmsgs s'.
  Proof.
    intros (A & B & C) (A' & B' & C') V (_ & _ & L1 & L2 & L3). unfold aview in V. injection V as V1 V2 V3 V4. rewrite <- V1 in A'. rewrite <- V2 in B'. rewrite <- V3 in C'.
    split; [|split].
    - exact (prefix_same _ _ _ A A' (eq_sym L1)).
    - exact (prefix_same _ _ _ B B' (eq_sym L2)).
    - exact (prefix_same _ _ _ C C' (eq_sym L3)).
  Qed.
  Notation pre1 := (pre_ops pV threads csz psz G cb pb).
  Notation pre2 := (pre_ops pV' threads csz psz G cb pb).
  Notation bat1 s := (ap_batch pV (fun _ => pchal pb (hist s)) s).
  Notation bat2 s := (ap_batch pV' (fun _ => pchal pb (hist s)) s).
  Lemma like_bat s s' : alike s s' -> ap_poly s <> [] -> alike (bat1 s) (bat2 s').
  Proof.
    intros (A & B & C & D & E) Ne. assert (Ne' : ap_poly s' <> []) by (intro Z; rewrite Z in B; destruct (ap_poly s); [congruence|discriminate]).
    destruct (bat_sizes pV pb s Ne) as (A1 & B1 & C1 & D1 & E1). destruct (bat_sizes pV' pb s' Ne') as (A2 & B2 & C2 & D2 & E2). unfold alike. lia.
  Qed.
  Lemma like_man s s' s1 s1' : alike s s' -> ap_manage pV threads (fun _ => chal G cb (hist s)) s = Some s1 ->
    ap_manage pV' threads (fun _ => chal G cb (hist s')) s' = Some s1' -> alike s1 s1'.
  Proof.
    intros (A & B & C & D & E) M1 M2. destruct (man_sizes _ _ _ _ _ _ M1) as (A1 & B1 & C1 & D1 & E1). destruct (man_sizes _ _ _ _ _ _ M2) as (A2 & B2 & C2 & D2 & E2). unfold alike. lia.
  Qed.
  Lemma check_same s s' s1 s1' : alike s s' -> ap_msgs s1 = ap_msgs s1' -> check_ops cb s s1 = check_ops cb s' s1'.
  Proof. intros (_ & _ & _ & D & _) E. unfold check_ops. now rewrite D, E. Qed.
  Lemma batch_same s s' s1 s1' : alike s s' -> ap_pmsgs s1 = ap_pmsgs s1' -> batch_ops pb s s1 = batch_ops pb s' s1'.
  Proof. intros (_ & _ & _ & _ & D) E. unfold batch_ops. now rewrite D, E. Qed.
  Lemma end_same s s' os os' p p' : alike s s' -> end_ops pV threads G H cb s = Some (os, p) -> end_ops pV' threads G H cb s' = Some (os', p') ->
    aview p = aview p' -> os = os'.
  Proof.
    intros Lk E E' V. pose proof Lk as (A & _). unfold end_ops in E, E'. assert (Vh : ap_hash p = ap_hash p' /\ ap_msgs p = ap_msgs p') by (unfold aview in V; injection V; auto).
    destruct Vh as [Vh Vm]. destruct (ap_buf s), (ap_buf s'); try discriminate.
    - apply some_pair in E. destruct E as [<- <-]. apply some_pair in E'. destruct E' as [<- <-]. unfold fin_ops. now rewrite Vh.
    - destruct (ap_manage pV _ _ s) as [s1|]; [|discriminate]. destruct (ap_manage pV' _ _ s') as [s1'|]; [|discriminate].
      apply some_pair in E. destruct E as [<- <-]. apply some_pair in E'. destruct E' as [<- <-]. rewrite (check_same _ _ _ _ Lk Vm). unfold fin_ops. now rewrite Vh.
  Qed.
  Lemma pre_same s s' g g' o o' s1 s1' : alike s s' -> agate_like g g' -> pre1 s g = Some (o, s1) -> pre2 s' g' = Some (o', s1') ->
    alike s1 s1' /\ (ap_msgs s1 = ap_msgs s1' -> ap_pmsgs s1 = ap_pmsgs s1' -> o = o').
  Proof.
    intros Lk Lg E E'. pose proof Lk as (A & B & _). assert (Gf : forall n, a_full csz g' n = a_full csz g n) by (intro; destruct g, g'; try discriminate Lg; try (injection Lg; intros; subst); reflexivity).
    assert (Gp : forall n, a_pfull psz g' n = a_pfull psz g n) by (intro; destruct g, g'; try discriminate Lg; try (injection Lg; intros; subst); reflexivity).
    unfold pre_ops in E, E'. rewrite Gf, A in E'. rewrite Gp, B in E'. destruct (a_full csz g (length (ap_buf s))).
    - destruct (ap_manage pV _ _ s) as [s2|] eqn:M1; [|discriminate]. destruct (ap_manage pV' _ _ s') as [s2'|] eqn:M2; [|discriminate].
      apply some_pair in E. destruct E as [<- <-]. apply some_pair in E'. destruct E' as [<- <-]. pose proof (like_man _ _ _ _ Lk M1 M2) as (X1 & X2 & X3 & X4 & X5).
      split; [repeat split; auto|]. intros Em _. now apply check_same.
    - destruct (a_pfull psz g (length (ap_poly s))) eqn:Fp; apply some_pair in E; destruct E as [<- <-]; apply some_pair in E'; destruct E' as [<- <-]; [|auto].
      assert (Ne : ap_poly s <> []).
      { intro Z. rewrite Z in Fp. destruct g; try discriminate; cbn [a_pfull length Nat.eqb negb] in Fp; rewrite andb_false_r in Fp; discriminate. }
      split; [now apply like_bat|]. intros _ Em. now apply batch_same.
  Qed.
  Lemma asched_same c : forall c' s s' os os' p p', Forall2 agate_like c c' -> alike s s' ->
    asched pub_mac pV threads csz psz G H cb pb s c = Some (os, p) -> asched pub_mac pV' threads csz psz G H cb pb s' c' = Some (os', p') -> aview p = aview p' -> os = os'.
  Proof.
    induction c as [|g c IH]; intros c' s s' os os' p p' Lc Lk E E' V; inversion Lc as [|g1 g2 l1 l2 Lg Lr]; subst; cbn [asched] in E, E'.
    - pose proof Lk as (_ & B & _). destruct (ap_poly s) eqn:Ep, (ap_poly s') eqn:Ep'; try discriminate; [eapply end_same; eauto|].
      destruct (end_ops pV threads G H cb (bat1 s)) as [[o1 q1]|] eqn:E1; [|discriminate]. destruct (end_ops pV' threads G H cb (bat2 s')) as [[o2 q2]|] eqn:E2; [|discriminate].
      apply some_pair in E. destruct E as [<- <-]. apply some_pair in E'. destruct E' as [<- <-].
      assert (Lb : alike (bat1 s) (bat2 s')) by (apply like_bat; [exact Lk|rewrite Ep; discriminate]).
      destruct (up_same _ _ _ _ (end_up _ _ _ _ _ _ _ _ E1) (end_up _ _ _ _ _ _ _ _ E2) V Lb) as (_ & _ & Em).
      rewrite (batch_same _ _ _ _ Lk Em). f_equal. eapply end_same; eauto.
    - destruct (pre1 s g) as [[o1 s1]|] eqn:P1; [|discriminate]. destruct (pre2 s' g2) as [[o1' s1']|] eqn:P2; [|discriminate].
      destruct (ap_step pub_mac pV _ _ _ _ _ s1 g) as [s2|] eqn:S1; [|discriminate]. destruct (ap_step pub_mac pV' _ _ _ _ _ s1' g2) as [s2'|] eqn:S2; [|discriminate].
      destruct (asched pub_mac pV threads csz psz G H cb pb s2 c) as [[oA pA]|] eqn:A1; [|discriminate].
      destruct (asched pub_mac pV' threads csz psz G H cb pb s2' l2) as [[oB pB]|] eqn:A2; [|discriminate].
      apply some_pair in E. destruct E as [<- <-]. apply some_pair in E'. destruct E' as [<- <-].
      destruct (pre_same _ _ _ _ _ _ _ _ Lk Lg P1 P2) as [L1 Eo].
      assert (L2 : alike s2 s2' /\ a_sends g2 = a_sends g).
      { destruct (pre_room pV threads csz psz G cb pb Hcsz _ _ _ _ P1) as [R1 R2]. destruct (pre_room pV' threads csz psz G cb pb Hcsz _ _ _ _ P2) as [R1' R2'].
        destruct (stp_sizes pub_mac pV threads csz psz _ _ _ R1 R2 S1) as (X1 & X2 & X3 & X4 & X5).
        destruct (stp_sizes pub_mac pV' threads csz psz _ _ _ R1' R2' S2) as (Y1 & Y2 & Y3 & Y4 & Y5). destruct L1 as (Z1 & Z2 & Z3 & Z4 & Z5).
        assert (Gk : a_sends g2 = a_sends g /\ g_mul g2 = g_mul g /\ g_rel g2 = g_rel g) by (destruct g, g2; try discriminate Lg; try (injection Lg; intros; subst); repeat split).
        destruct Gk as (K1 & K2 & K3). rewrite K1 in Y3. rewrite K2 in Y1. rewrite K3 in Y2. split; [unfold alike; lia|exact K1]. }
      destruct L2 as [L2 Ks]. pose proof (asched_up _ _ _ _ _ _ _ _ _ _ _ _ _ A1) as U1. pose proof (asched_up _ _ _ _ _ _ _ _ _ _ _ _ _ A2) as U2.
      destruct (up_same _ _ _ _ (upto_trans _ _ _ (stp_up _ _ _ _ _ _ _ _ S1) U1) (upto_trans _ _ _ (stp_up _ _ _ _ _ _ _ _ S2) U2) V L1) as (_ & Em & Epm).
      destruct (up_same _ _ _ _ U1 U2 V L2) as (Ew & _). rewrite (Eo Em Epm). unfold word_ops. rewrite Ks, Ew. do 2 f_equal. eapply IH; eauto.
  Qed.
End Same.

Section Main.
  Variables (auto : bool) (coins : bool -> nat -> N) (pub_mac : N) (key : nat -> N) (d : N) (threads csz psz : nat)
    (G : N -> nat -> N) (H : list N -> list N) (RV : Type) (V : aproc RV) (c : list agate) (k : nat) (t : situation RV).
  Hypothesis Hpm : canon pub_mac.
  Hypothesis Hkd : akeys_ok key d.
  Hypothesis Hok : asession_ok threads csz psz c.
  Hypothesis HB : Forall (fun r => Forall (fun b => (b < 256)%N) (snd r)) (t_log t).
  Hypothesis HR : reduced (t_log t).
  Notation reach := (areaching auto coins pub_mac key d threads csz psz G H V c k t).
  (** the challenges of this situation *)
  Let cb (j : nat) : N := dec_bytes (firstn 16 (nth j (reads_at AtSeed (t_log t)) [])).
  Let pb (j : nat) : N := dec_bytes (nth j (reads_at AtPSeed (t_log t)) []).
  Notation honest := (ahonest pub_mac key d threads csz psz (chal G cb) (pchal pb) c).
  Lemma reads_in s l x : In x (reads_at s l) -> In (s, x) l.
  Proof.
    induction l as [|[s' y] l IH]; [intros []|]. cbn [reads_at]. destruct (site_eqb s' s) eqn:E.
    - intros [->|I]; [left; destruct s', s; try discriminate; reflexivity|right; auto].
    - intro I. right. auto.
  Qed.
  Lemma nth_in_nil {A} j (l : list (list A)) : nth j l [] = [] \/ In (nth j l []) l.
  Proof. destruct (Nat.lt_ge_cases j (length l)); [right; now apply nth_In|left; now apply nth_overflow]. Qed.
  Lemma pb_lt j : (pb j < prm)%N.
  Proof.
    unfold pb. destruct (nth_in_nil j (reads_at AtPSeed (t_log t))) as [->|I]; [reflexivity|]. apply reads_in in I.
    unfold reduced in HR. rewrite Forall_forall in HR. exact (HR _ I eq_refl).
  Qed.
  Lemma cb_lt j : (cb j < 2 ^ 128)%N.
  Proof.
    unfold cb. destruct (nth_in_nil j (reads_at AtSeed (t_log t))) as [->|I]; [reflexivity|]. apply reads_in in I.
    rewrite Forall_forall in HB. specialize (HB _ I). cbn [snd] in HB. set (x := nth j _ _) in *.
    eapply N.lt_le_trans; [apply dec_bound; rewrite <- (firstn_skipn 16 x) in HB; apply Forall_app in HB; apply HB|].
    apply N.pow_le_mono_r; [discriminate|]. pose proof (firstn_le_length 16 x). lia.
  Qed.
  Lemma pchal_64 h : (pchal pb h < 2 ^ 64)%N.
  Proof. eapply N.lt_trans; [apply pb_lt|reflexivity]. Qed.
  Lemma enc64_dec l : Forall (fun b => (b < 256)%N) l -> length l = 8 -> enc64 (dec_bytes l) = l.
  Proof. intros F L. pose proof (enc_dec_gen l F) as E. rewrite L in E. exact E. Qed.
  Lemma reads_at_app' s a b : reads_at s (a ++ b) = reads_at s a ++ reads_at s b.
  Proof. induction a as [|[u x] a IH]; [reflexivity|]. cbn [app reads_at]. rewrite IH. now destruct (site_eqb u s). Qed.
  Lemma num_at : forall l a b s x r, numbered cb pb a b (l ++ (s, x) :: r) ->
    (s = AtSeed /\ x = enc_block (cb (a + length (reads_at AtSeed l)))) \/ (s = AtPSeed /\ x = enc64 (pb (b + length (reads_at AtPSeed l)))).
  Proof.
    induction l as [|[s0 y] l IH]; intros a b s x r N0; cbn [app numbered reads_at] in *.
    - destruct s; try contradiction; destruct N0 as [-> _]; cbn [length]; rewrite !Nat.add_0_r; auto.
    - destruct s0; try contradiction; destruct N0 as [_ N0]; destruct (IH _ _ _ _ _ N0) as [[A B]|[A B]]; cbn [site_eqb length] in *.
      + left. split; [exact A|]. rewrite B. do 2 f_equal. lia.
      + right. auto.
      + left. auto.
      + right. split; [exact A|]. rewrite B. do 2 f_equal. lia.
  Qed.
  Lemma follow_pair ins ins' u u' p p' : honest ins u = Some p -> honest ins' u' = Some p' -> aview p = aview p' ->
    exists L, afollow (ap_prog pub_mac (vole_block (val_of u) (mac_of key d u)) threads csz psz G H ap_init (awith_inputs ins c)) L (Some p) /\
              afollow (ap_prog pub_mac (vole_block (val_of u') (mac_of key d u')) threads csz psz G H ap_init (awith_inputs ins' c)) L (Some p') /\
              numbered cb pb 0 0 (gets L).
  Proof.
    intros E E' Ev. destruct Hok as (Hth & Hcsz & Hpsz & _).
    destruct (asched_run pub_mac (vole_block (val_of u) (mac_of key d u)) threads csz psz G H cb pb Hcsz _ _ _ E) as [os S1].
    destruct (asched_run pub_mac (vole_block (val_of u') (mac_of key d u')) threads csz psz G H cb pb Hcsz _ _ _ E') as [os' S2].
    assert (Eo : os = os').
    { refine (asched_same pub_mac _ _ threads csz psz G H cb pb Hcsz _ _ _ _ _ _ _ _ (ainputs_like c ins ins') _ S1 S2 Ev). repeat split. }
    subst os'. exists os. split; [|split].
    - exact (asched_follow pub_mac _ threads csz psz G H cb pb cb_lt pb_lt _ _ _ _ S1).
    - exact (asched_follow pub_mac _ threads csz psz G H cb pb cb_lt pb_lt _ _ _ _ S2).
    - exact (asched_num pub_mac _ threads csz psz G H cb pb Hcsz _ _ _ _ S1).
  Qed.
  Lemma areach_transfer ins ins' u u' p p' : honest ins u = Some p -> honest ins' u' = Some p' -> aview p = aview p' ->
    fvec (aentropy csz psz c) u' -> reach ins u -> reach ins' u'.
  Proof.
    intros E E' Ev Hu' (_ & l & n & Hn & Et). destruct (follow_pair _ _ _ _ _ _ E E' Ev) as (L & F1 & F2 & Nm).
    assert (El : l = t_log t) by (rewrite <- Et; reflexivity).
    destruct (alock_run auto coins _ _ V L _ _ (t_log t) F1 F2) with (k := k) (log := l) (n := n) as (n' & R & E1 & E2 & E3 & E4 & E5 & E6 & E7 & E8 & _).
    - intros l0 s x x' r Eg Px Lx. rewrite Eg in Nm. destruct (num_at _ _ _ _ _ _ Nm) as [[-> X]|[-> X]]; cbn [Nat.add] in X.
      + destruct Px as [q Eq]. assert (Ex : nth (length (reads_at AtSeed l0)) (reads_at AtSeed (t_log t)) [] = x).
        { rewrite Eq, !reads_at_app'. cbn [reads_at site_eqb]. rewrite <- app_assoc, app_nth2, Nat.sub_diag by lia. reflexivity. }
        assert (Bx : Forall (fun b => (b < 256)%N) x). { rewrite Forall_forall in HB. apply (HB (AtSeed, x)). rewrite Eq. apply in_or_app. left. apply in_or_app. right. now left. }
        rewrite X, enc_block_len in Lx. rewrite X. unfold cb. rewrite Ex. assert (Fx : firstn 16 x = x) by (rewrite <- Lx; apply firstn_all). rewrite Fx. symmetry. now apply enc_dec.
      + destruct Px as [q Eq]. assert (Ex : nth (length (reads_at AtPSeed l0)) (reads_at AtPSeed (t_log t)) [] = x).
        { rewrite Eq, !reads_at_app'. cbn [reads_at site_eqb]. rewrite <- app_assoc, app_nth2, Nat.sub_diag by lia. reflexivity. }
        assert (Bx : Forall (fun b => (b < 256)%N) x). { rewrite Forall_forall in HB. apply (HB (AtPSeed, x)). rewrite Eq. apply in_or_app. left. apply in_or_app. right. now left. }
        rewrite X, enc64_len in Lx. rewrite X. unfold pb. rewrite Ex. symmetry. now apply enc64_dec.
    - exact Hn.
    - rewrite El. apply prefix_refl.
    - split; [exact Hu'|]. exists l, n'. split; [exact R|]. rewrite <- Et. unfold situation_of. now rewrite E1, E2, E3, E4, E5, E6, E7, E8.
  Qed.
  Lemma areach_one_to_one ins ins' outs : witness c ins outs -> witness c ins' outs -> exists E, one_to_one (reach ins) (reach ins') E.
  Proof.
    intros W W'. destruct (aview_bijection pub_mac key d threads csz psz (chal G cb) (pchal pb) c Hpm pchal_64 Hkd Hok ins ins' outs W W') as (phi & psi & A & B & C).
    assert (Ex : forall i u, exists p, honest i u = Some p) by (intros i u; exact (ahonest_exists pub_mac key d threads csz psz (chal G cb) (pchal pb) c Hok i u)).
    exists (fun u u' => fvec (aentropy csz psz c) u /\ u' = phi u). split; [|split; [|split]].
    - intros u Hu. pose proof Hu as (Fu & _). exists (phi u). split; [|auto]. destruct (Ex ins u) as [p Ep], (Ex ins' (phi u)) as [p' Ep'].
      apply (areach_transfer ins ins' u (phi u) p p' Ep Ep' (C u p p' Fu Ep Ep')); [apply A, Fu|exact Hu].
    - intros u Hu. pose proof Hu as (Fu & _). destruct (B u Fu) as [F2 Eu]. exists (psi u). split; [|split; [exact F2|now symmetry]].
      destruct (Ex ins (psi u)) as [p Ep], (Ex ins' u) as [p' Ep'].
      assert (Vv : aview p = aview p') by (apply (C (psi u) p p' F2 Ep); now rewrite Eu).
      exact (areach_transfer ins' ins u (psi u) p' p Ep' Ep (eq_sym Vv) F2 Hu).
    - intros a b b' [_ ->] [_ ->]. reflexivity.
    - intros a a' b [Fa ->] [Fa' E]. destruct (A a Fa) as [_ X], (A a' Fa') as [_ Y]. congruence.
  Qed.
End Main.
