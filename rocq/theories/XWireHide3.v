(** Hiding in a session with both engines on one channel: any verifier program. *)
From Coq Require Import NArith List Bool Arith Lia.
From Verif Require Import Word WordProofs GF128 GF128Ring FpModel FpProofs ArithModel ArithSpec AHideSpec AHideThms2 BoolModel BoolSpec BoolProofs BoolAlg BoolThms BoolThms2 BoolIOModel BoolIOSpec BoolIOProofs
  BoolIOThms BoolIOThms2 HideSpec HideProofs BoolPolyModel BoolPolySpec BSessModel BSessSpec BSessProofs BSessThms BSessHideSpec BSessHide WireModel WireNet WireProofs
  WireAny BWireModel BWireSpec BWireProofs BWireThms BWireHideSpec BWireHide AWireModel AWireNet AWireProofs XWireModel XWireArith XWireBool XWireThms XWireHideSpec XWireHide XWireHide2.
From Verif Require AWireHide.
Import ListNotations.

(** * programs with other inputs, and with the data that was received *)
Lemma bcalls_with prog : forall bo ao, length bo = length (bcalls prog) -> bcalls (xwith bo ao prog) = bo.
Proof.
  induction prog as [|[o|g|d x|] prog IH]; intros bo ao L; cbn [bcalls xwith] in *.
  - now destruct bo.
  - destruct bo as [|o' bo]; [discriminate|]. cbn [bcalls]. f_equal. apply IH. now injection L.
  - destruct ao; cbn [bcalls]; now apply IH.
  - now apply IH.
  - now apply IH.
Qed.
Lemma acalls_with prog : forall bo ao, length ao = length (acalls prog) -> acalls (xwith bo ao prog) = ao.
Proof.
  induction prog as [|[o|g|d x|] prog IH]; intros bo ao L; cbn [acalls xwith] in *.
  - now destruct ao.
  - destruct bo; cbn [acalls]; now apply IH.
  - destruct ao as [|o' ao]; [discriminate|]. cbn [acalls]. f_equal. apply IH. now injection L.
  - now apply IH.
  - now apply IH.
Qed.
Lemma f2_len {A B} (R : A -> B -> Prop) l l' : Forall2 R l l' -> length l' = length l.
Proof. induction 1; cbn; congruence. Qed.
Lemma inputs_like0 prog : forall ins, Forall2 bop_like (bwith_inputs ins prog) prog.
Proof.
  induction prog as [|[g|c] prog IH]; intros ins; cbn [bwith_inputs].
  - constructor.
  - destruct g; try (constructor; [cbn; reflexivity|apply IH]). destruct ins; (constructor; [cbn; auto|apply IH]).
  - constructor; [reflexivity|apply IH].
Qed.
Lemma ainputs_like0 c : forall ins, Forall2 AWireHide.agate_like (awith_inputs ins c) c.
Proof.
  induction c as [|g c IH]; intros ins; cbn [awith_inputs]; [constructor|].
  destruct g; try (constructor; [cbn; reflexivity|apply IH]). destruct ins; (constructor; [cbn; auto|apply IH]).
Qed.
Lemma bop_like_refl o : bop_like o o. Proof. destruct o as [g|c]; [destruct g|]; cbn; auto. Qed.
Lemma agate_like_refl g : AWireHide.agate_like g g. Proof. destruct g; cbn; auto. Qed.
Lemma with_like prog : forall bo bo' ao ao', Forall2 bop_like bo bo' -> Forall2 AWireHide.agate_like ao ao' -> Forall2 xop_like (xwith bo ao prog) (xwith bo' ao' prog).
Proof.
  induction prog as [|[o|g|d x|] prog IH]; intros bo bo' ao ao' B A; cbn [xwith]; [constructor| | | |].
  - inversion B; subst; constructor; cbn [xop_like]; auto. apply bop_like_refl.
  - inversion A; subst; constructor; cbn [xop_like]; auto. apply agate_like_refl.
  - constructor; cbn; auto.
  - constructor; cbn; auto.
Qed.
Lemma with_self prog : forall bo ao, Forall2 bop_like bo (bcalls prog) -> Forall2 AWireHide.agate_like ao (acalls prog) -> Forall2 xop_like (xwith bo ao prog) prog.
Proof.
  induction prog as [|[o|g|d x|] prog IH]; intros bo ao B A; cbn [xwith bcalls acalls] in *; [constructor| | | |].
  - inversion B; subst; constructor; cbn [xop_like]; auto.
  - inversion A; subst; constructor; cbn [xop_like]; auto.
  - constructor; cbn; auto.
  - constructor; cbn; auto.
Qed.
Fixpoint xfill (ds : list (list N)) (prog : list xop) : list xop :=
  match prog with
  | [] => []
  | XData false x :: r => XData false (let y := hd [] ds in if Nat.eqb (length y) (length x) then y else x) :: xfill (tl ds) r
  | o :: r => o :: xfill ds r
  end.
Definition xdlike (o o' : xop) : Prop := match o, o' with XData false x, XData false x' => length x' = length x | _, _ => o = o' end.
Lemma fill_like prog : forall ds, Forall2 xdlike (xfill ds prog) prog.
Proof.
  induction prog as [|[o|g|[|] x|] prog IH]; intro ds; cbn [xfill]; constructor; try apply IH; try reflexivity.
  cbn. destruct (Nat.eqb_spec (length (hd [] ds)) (length x)); auto.
Qed.
Lemma fill_b prog : forall ds, bcalls (xfill ds prog) = bcalls prog.
Proof. induction prog as [|[o|g|[|] x|] prog IH]; intro ds; cbn [xfill bcalls]; rewrite ?IH; reflexivity. Qed.
Lemma fill_a prog : forall ds, acalls (xfill ds prog) = acalls prog.
Proof. induction prog as [|[o|g|[|] x|] prog IH]; intro ds; cbn [xfill acalls]; rewrite ?IH; reflexivity. Qed.
Lemma fill_u psz acsz apsz prog : forall q m p ds, uroles psz acsz apsz q m p (xfill ds prog) = uroles psz acsz apsz q m p prog.
Proof.
  induction prog as [|[o|g|[|] x|] prog IH]; intros q m p ds; cbn [xfill uroles].
  - reflexivity.
  - destruct o as [g|c]; [apply IH|]. destruct (item_roles psz (nrel c) q). now rewrite IH.
  - destruct g; rewrite ?IH; reflexivity.
  - apply IH.
  - now rewrite IH.
  - apply IH.
Qed.
Lemma fill_xlike p p' : Forall2 xop_like p p' -> forall ds, Forall2 xop_like (xfill ds p) (xfill ds p').
Proof.
  induction 1 as [|o o' p p' L F IH]; intro ds; [constructor|].
  destruct o as [o|g|[|] x|], o' as [o'|g'|[|] x'|]; cbn [xop_like] in L; try contradiction; try (destruct L; discriminate); cbn [xfill]; constructor; try apply IH; try exact L.
  destruct L as [_ <-]. cbn. auto.
Qed.
Lemma uroles_like psz acsz apsz p p' : Forall2 xop_like p p' -> forall q m r, uroles psz acsz apsz q m r p = uroles psz acsz apsz q m r p'.
Proof.
  induction 1 as [|o o' p p' L F IH]; intros q m r; [reflexivity|].
  destruct o as [o|g|d x|], o' as [o'|g'|d' x'|]; cbn [xop_like] in L; try contradiction; cbn [uroles].
  - destruct o as [g|c], o' as [g'|c']; cbn in L; try contradiction; [apply IH|]. subst. destruct (item_roles psz (nrel c') q). now rewrite IH.
  - destruct g, g'; cbn in L; try discriminate L; try (injection L; intros; subst); rewrite ?IH; reflexivity.
  - destruct L as [<- <-]. destruct d; now rewrite IH.
  - apply IH.
Qed.
Lemma fill_nth prog : forall ds j, length (nth j ds []) = length (nth j (data_to true (xfill ds prog)) []) -> nth j (data_to true (xfill ds prog)) [] = nth j ds [].
Proof.
  induction prog as [|[o|g|[|] x|] prog IH]; intros ds j L; cbn [xfill data_to Bool.eqb negb] in *; try (now apply IH).
  - destruct (nth j ds []); [now destruct j|]. destruct j; discriminate.
  - destruct j as [|j]; cbn [nth] in *.
    + destruct ds as [|y ds]; cbn [hd nth] in *.
      * destruct (Nat.eqb_spec (length (@nil N)) (length x)); [reflexivity|]. cbn in L. now destruct x.
      * destruct (Nat.eqb_spec (length y) (length x)); [reflexivity|congruence].
    + assert (T : nth j (tl ds) [] = nth (S j) ds []) by (destruct ds; [now destruct j|reflexivity]). rewrite <- T in *. now apply IH.
Qed.

(** * the prover follows the schedule whatever data it receives *)
Section Follow.
  Variables (r0 r1 : N) (pM vK : nat -> N) (threads csz psz : nat) (ope opek : nat -> list N) (rseeds : nat -> N).
  Variables (G : list N -> nat -> N) (H : list N -> list N).
  Variables (pub_mac : N) (pV : nat -> N) (acsz apsz : nat) (AG : N -> nat -> N) (AH : list N -> list N).
  Variable coins : bool -> nat -> N.
  Hypothesis Hth : 1 <= threads.
  Hypothesis Hcsz : threads <= csz.
  Hypothesis HH : forall l, length (H l) = 32.
  Hypothesis Hope : forall k, length (ope k) = 128.
  Hypothesis Hrs : forall k, (rseeds k < 2 ^ 128)%N.
  Hypothesis Hcoins : forall k, (coins false k < 2 ^ 128)%N.
  Hypothesis Hacsz : 1 <= acsz.
  Variable seeds : nat -> nat -> N.
  Notation sched := (xsched r0 r1 pM threads csz psz ope rseeds H pub_mac pV acsz apsz AG AH coins seeds).
  Notation sds := (seeds_are G seeds).
  Notation pprog := (xprv_prog r0 r1 pM threads csz psz ope G H pub_mac pV acsz apsz AG AH).
  Lemma xprv_follow_data prog : forall prog0 s os p dl, Forall2 xdlike prog prog0 -> sched s prog = Some (os, p) -> sds (p_chk (bp_gates (xp_b s))) dl -> length dl = nchal os ->
    follow true (pprog s prog0) (compile (os ++ [OFlush])) dl (Some p).
  Proof.
    induction prog as [|o0 prog IH]; intros prog0 s os p dl Lk E Sd Ld; inversion Lk as [|a b l1 l2 Lo Lp]; subst; clear Lk.
    - exact (@xprv_follow r0 r1 pM vK threads csz psz ope opek rseeds G H pub_mac pV acsz apsz AG AH coins Hth Hcsz HH Hope Hrs Hcoins Hacsz seeds [] s os p dl E Sd Ld).
    - destruct o0 as [o|g|[|] x|]; cbn [xdlike] in Lo; try subst b; cbn [xsched xprv_prog] in *.
      + destruct (bp_step r0 r1 pM threads csz psz seeds rseeds ope (xp_b s) o) as [b|] eqn:Eb; [|discriminate].
        destruct (sched _ prog) as [[os1 p1]|] eqn:E1; [|discriminate]. apply some2 in E. destruct E as [<- <-]. rewrite nchal_app in Ld. rewrite <- app_assoc, compile_app.
        assert (LL : nchal (bop_ops r0 r1 pM threads csz psz rseeds ope seeds (xp_b s) o) <= length dl) by (clear - Ld; lia).
        apply (@pb_op r0 r1 pM vK threads csz psz ope opek rseeds G H Hth Hcsz HH Hope Hrs seeds _ _ o b _ _ _ _ Eb Sd LL). apply (IH l2 {| xp_b := b; xp_a := xp_a s; xp_got := xp_got s |} os1 p1); auto.
        * cbn [xp_b]. rewrite (@bop_chk r0 r1 pM vK threads csz psz ope opek rseeds G H Hth Hcsz HH Hope Hrs seeds _ _ _ Eb). now apply sds_skip.
        * rewrite skipn_length. clear - Ld. lia.
      + destruct (ap_step _ _ _ _ _ _ _ (xp_a s) g) as [a|] eqn:Ea; [|discriminate].
        destruct (sched _ prog) as [[os1 p1]|] eqn:E1; [|discriminate]. apply some2 in E. destruct E as [<- <-]. rewrite nchal_app in Ld. rewrite <- app_assoc, compile_app.
        assert (Q : nchal (aop_ops threads pub_mac pV acsz apsz AG coins (xp_a s) g) = 0) by (apply quiet_facts, aop_quiet). rewrite Q in Ld.
        apply (@pf_arith threads pub_mac pV acsz apsz AG coins Hcoins Hacsz _ _ g a _ _ _ _ Ea). apply (IH l2 {| xp_b := xp_b s; xp_a := a; xp_got := xp_got s |} os1 p1); auto.
      + destruct (sched _ prog) as [[os1 p1]|] eqn:E1; [|discriminate]. apply some2 in E. destruct E as [<- <-]. cbn [app nchal] in Ld.
        rewrite <- app_assoc, compile_app. cbn [compile flat_map compile1 app follow Bool.eqb]; fold (compile (os1 ++ [OFlush])).
        (eexists; split; [reflexivity|]); (eexists; split; [reflexivity|]). eapply IH; eauto. destruct s; exact E1.
      + destruct b as [|[]|[|] x'|]; try discriminate Lo. cbn [xprv_prog]. rewrite Lo.
        destruct (sched _ prog) as [[os1 p1]|] eqn:E1; [|discriminate]. apply some2 in E. destruct E as [<- <-]. cbn [app nchal] in Ld.
        rewrite <- app_assoc, compile_app. cbn [compile flat_map compile1 app follow Bool.eqb]; fold (compile (os1 ++ [OFlush])).
        (eexists; split; [reflexivity|]); (eexists; split; [reflexivity|]). exact (IH l2 _ os1 p1 dl Lp E1 Sd Ld).
      + destruct (sched s prog) as [[os1 p1]|] eqn:E1; [|discriminate]. apply some2 in E. destruct E as [<- <-]. cbn [app nchal] in Ld.
        rewrite <- app_assoc, compile_app. cbn [compile flat_map compile1 app follow]. fold (compile (os1 ++ [OFlush])). eexists. split; [reflexivity|]. now apply (IH l2 s os1 p1).
  Qed.
End Follow.

(** * the run with challenges numbered by the messages sent is the run with numbered seeds *)
Section Bridge.
  Variables (pub_mac : N) (pV : nat -> N) (threads csz psz : nat) (AG : N -> nat -> N) (cb pb : nat -> N).
  Hypothesis Hcsz : 1 <= csz.
  Notation coins := (fun b : bool => if b then pb else cb).
  Notation sdA := (fun k : nat => AG (coins false k)).
  Lemma step_ext sd sd' ps ps' s g : sd (ap_chk s) = sd' (ap_chk s) -> ps (ap_pchk s) = ps' (ap_pchk s) ->
    ap_step pub_mac pV threads csz psz sd ps s g = ap_step pub_mac pV threads csz psz sd' ps' s g.
  Proof.
    intros E1 E2. destruct g; cbn [ap_step]; try reflexivity; unfold ap_precheck, ap_manage, ap_queue, ap_batch; rewrite ?E1, ?E2; reflexivity.
  Qed.
  Definition counted (s : apst) : Prop := ap_chk s = length (ap_msgs s) /\ ap_pchk s = length (ap_pmsgs s).
  Lemma step_counted s g a : counted s -> ap_step pub_mac pV threads csz psz sdA pb s g = Some a -> counted a.
  Proof.
    intros [C1 C2] E. destruct (a_full csz g (length (ap_buf s))) eqn:F1; [|destruct (a_pfull psz g (length (ap_poly s))) eqn:F2].
    - rewrite (p_full pub_mac pV threads csz psz AG coins Hcsz s g F1) in E. destruct (ap_manage pV threads sdA s) as [a1|] eqn:Em; [|discriminate].
      destruct (man_szs _ _ _ _ _ Em) as (_ & M2 & M3 & M4 & M5 & M6 & M7).
      destruct (step_sizes pub_mac pV threads csz psz _ _ (ap_clear a1) g a (clear_full _ Hcsz _ _) (full_not_p _ _ _ _ _ F1) E) as (_ & _ & _ & S4 & S5 & S6 & S7).
      cbn [ap_clear ap_msgs ap_pmsgs ap_chk ap_pchk] in *. split; lia.
    - rewrite (p_pfull pub_mac pV threads csz psz AG coins s g F2) in E. pose proof (pfull_ne _ _ _ F2) as Z.
      assert (Ne : ap_poly s <> []) by (intro X; rewrite X in Z; now cbn in Z). destruct (bat_szs pV pb _ Ne) as (M1 & M2 & M3 & M4 & M5 & M6 & M7).
      destruct (step_sizes pub_mac pV threads csz psz _ _ _ g a ltac:(eapply pfull_not; exact F2) (bat_pfull pV psz coins s g) E) as (_ & _ & _ & S4 & S5 & S6 & S7). split; lia.
    - destruct (step_sizes pub_mac pV threads csz psz _ _ _ g a F1 F2 E) as (_ & _ & _ & S4 & S5 & S6 & S7). split; lia.
  Qed.
  Lemma ah_rest c : forall s p, counted s ->
    match ah_run pub_mac threads csz psz (AWireHide.chal AG cb) (AWireHide.pchal pb) pV s c with None => None | Some s1 => ah_final threads (AWireHide.chal AG cb) (AWireHide.pchal pb) pV s1 end = Some p ->
    arest threads pub_mac pV csz psz AG coins s c = Some p.
  Proof.
    unfold arest. induction c as [|g c IH]; intros s p [C1 C2] E; cbn [ah_run ap_run] in *.
    - unfold ah_final in E. unfold ap_final. cbv zeta in *.
      assert (B : ap_batch pV (fun _ => AWireHide.pchal pb (hist s)) s = ap_batch pV pb s) by (unfold ap_batch; change (AWireHide.pchal pb (hist s)) with (pb (length (ap_pmsgs s))); rewrite <- C2; reflexivity).
      rewrite B in E. set (s1 := ap_batch pV pb s) in *. assert (C3 : ap_chk s1 = length (ap_msgs s1)) by (unfold s1, ap_batch; destruct (ap_poly s); exact C1).
      destruct (ap_buf s1) eqn:Eb; [exact E|]. unfold ap_manage in *. unfold AWireHide.chal, hist in E. cbn [fst snd] in E. rewrite <- C3 in E. exact E.
    - assert (S1 : ah_step pub_mac threads csz psz (AWireHide.chal AG cb) (AWireHide.pchal pb) pV s g = ap_step pub_mac pV threads csz psz sdA pb s g).
      { unfold ah_step. apply step_ext; unfold AWireHide.chal, AWireHide.pchal, hist; cbn [fst snd]; now rewrite ?C1, ?C2. }
      rewrite S1 in E. destruct (ap_step pub_mac pV threads csz psz sdA pb s g) as [a|] eqn:Ea; [|discriminate]. exact (IH a p (step_counted s g a (conj C1 C2) Ea) E).
  Qed.
End Bridge.

Section Main.
  Variables (bs br reset : bool) (NB : nat) (gs gr : list bool) (r0 r1 : N) (key : nat -> N) (rkey : nat -> nat -> N) (d : N) (threads csz psz : nat)
    (G : list N -> nat -> N) (H : list N -> list N) (pub_mac : N) (akey : nat -> N) (ad : N) (acsz apsz : nat) (AG : N -> nat -> N) (AH : list N -> list N)
    (RV : Type) (V : proc RV) (prog : list xop) (k : nat) (t : ep * proc RV * ep * list N * list N).
  Hypothesis Hkey : valid_keys key.
  Hypothesis Hrkey : valid_rkeys rkey.
  Hypothesis Hd : valid_delta d.
  Hypothesis HH : forall l, length (H l) = 32.
  Hypothesis Hp : 1 <= psz.
  Hypothesis Wf : wf_prog 0 (bcalls prog) = true.
  Hypothesis Hok : session_ok threads csz (gates_of (bcalls prog)).
  Hypothesis Hpm : canon pub_mac.
  Hypothesis Hkd : akeys_ok akey ad.
  Hypothesis Haok : asession_ok threads acsz apsz (acalls prog).
  Let eF : ep := fst (fst (fst (fst t))).
  Hypothesis HB : Forall (Forall (fun b => (b < 256)%N)) (read_data (e_reads eF)).
  Hypothesis HR : Forall (fun x => (dec_bytes x < prm)%N) (u_of psz acsz apsz prog eF UPoly).
  Notation reach := (xreaching bs br reset NB gs gr r0 r1 key rkey d threads csz psz G H pub_mac akey ad acsz apsz AG AH V prog k t).
  Let UR := uroles psz acsz apsz 0 0 0 prog.
  Let R (r : urole) (j : nat) : list N := nth j (u_of psz acsz apsz prog eF r) [].
  Let sd (j : nat) : nat -> N := G (nth j (e_digests eF) []).
  Let rs (j : nat) : N := dec_bytes (firstn 16 (R URel j)).
  Let cb (j : nat) : N := dec_bytes (firstn 16 (R UMul j)).
  Let pb (j : nat) : N := dec_bytes (R UPoly j).
  Notation coins := (fun b : bool => if b then pb else cb).
  Let ds := u_of psz acsz apsz prog eF UData.
  Notation bH := (bh r0 r1 key rkey d threads csz psz sd rs (bcalls prog)).
  Notation aH := (ahonest pub_mac akey ad threads acsz apsz (AWireHide.chal AG cb) (AWireHide.pchal pb) (acalls prog)).
  Lemma rd_ok x : In x (map rd_bytes (e_reads eF)) -> Forall (fun b => (b < 256)%N) x.
  Proof.
    revert HB. clear. induction (e_reads eF) as [|[b|y] l IH]; intros HB Hx; [destruct Hx| |]; cbn [map rd_bytes read_data] in *.
    - destruct Hx as [<-|Hx]; [constructor|now apply IH].
    - inversion HB; subst. destruct Hx as [<-|Hx]; [assumption|now apply IH].
  Qed.
  Lemma R_bytes r j : Forall (fun b => (b < 256)%N) (R r j).
  Proof. unfold R. destruct (AWireHide.nth_in_nil j (u_of psz acsz apsz prog eF r)) as [->|I]; [constructor|]. apply rd_ok. exact (upick_in _ _ _ _ I). Qed.
  Lemma blk_lt r j : (dec_bytes (firstn 16 (R r j)) < 2 ^ 128)%N.
  Proof.
    pose proof (R_bytes r j) as F. set (x := R r j) in *.
    eapply N.lt_le_trans; [apply dec_bound; rewrite <- (firstn_skipn 16 x) in F; apply Forall_app in F; apply F|].
    apply N.pow_le_mono_r; [discriminate|]. pose proof (firstn_le_length 16 x). lia.
  Qed.
  Lemma pb_lt j : (pb j < prm)%N.
  Proof.
    unfold pb, R. destruct (AWireHide.nth_in_nil j (u_of psz acsz apsz prog eF UPoly)) as [->|I]; [reflexivity|]. rewrite Forall_forall in HR. exact (HR _ I).
  Qed.
  Lemma bh_defined ins u ru : length u = entropy csz (gates_of (bcalls prog)) -> length ru = rel_entropy psz (bcalls prog) -> exists p, bH ins u ru p.
  Proof.
    intros Lu Lr. exact (bsess_hiding_defined r0 r1 key rkey d threads csz psz (fun k _ _ i => sd k i) (fun k _ _ => rs k) (bcalls prog) Hp Wf Hok ins u ru Lu Lr).
  Qed.
  Lemma calls_b ins ds' : bcalls (xfill ds' (xwith_inputs ins prog)) = bwith_inputs (fst ins) (bcalls prog).
  Proof. rewrite fill_b. apply bcalls_with. rewrite <- (f2_len _ _ _ (inputs_like0 (bcalls prog) (fst ins))). reflexivity. Qed.
  Lemma calls_a ins ds' : acalls (xfill ds' (xwith_inputs ins prog)) = awith_inputs (snd ins) (acalls prog).
  Proof. rewrite fill_a. apply acalls_with. rewrite <- (f2_len _ _ _ (ainputs_like0 (acalls prog) (snd ins))). reflexivity. Qed.
  Lemma xreach_transfer ins ins' u ru au u' ru' au' p p' a a' :
    bH (fst ins) u ru p -> bH (fst ins') u' ru' p' -> bview p = bview p' -> aH (snd ins) au = Some a -> aH (snd ins') au' = Some a' -> aview a = aview a' ->
    fvec (aentropy acsz apsz (acalls prog)) au' -> reach ins (u, ru, au) -> reach ins' (u', ru', au').
  Proof.
    intros Bp Bp' Ev Ea Ea' Eva Fa' (Lu & Lr & Fa & n & Hn & Et). pose proof Bp as (_ & _ & X). pose proof Bp' as (Lu' & Lr' & X').
    split; [exact Lu'|]. split; [exact Lr'|]. split; [exact Fa'|]. destruct Hok as [[Hth Hcsz] _]. destruct Haok as (_ & Hac & _).
    assert (Ho1 : forall x j, length (omac rkey d x j) = 128) by (intros; unfold omac; now rewrite map_length, seq_length).
    assert (rs_lt : forall j, (rs j < 2 ^ 128)%N) by (intro; apply blk_lt). assert (cb_lt : forall j, (coins false j < 2 ^ 128)%N) by (intro; apply blk_lt).
    unfold ahonest, ah_exec in Ea, Ea'.
    assert (C0 : counted ap_init) by (split; reflexivity).
    pose proof (ah_rest pub_mac _ threads acsz apsz AG cb pb Hac _ _ _ C0 Ea) as Y. pose proof (ah_rest pub_mac _ threads acsz apsz AG cb pb Hac _ _ _ C0 Ea') as Y'.
    assert (XX : brest r0 r1 (mac key d u) threads csz psz (omac rkey d ru) rs sd bp_init (bwith_inputs (fst ins) (bcalls prog)) = Some p) by exact X.
    assert (XX' : brest r0 r1 (mac key d u') threads csz psz (omac rkey d ru') rs sd bp_init (bwith_inputs (fst ins') (bcalls prog)) = Some p') by exact X'.
    rewrite <- (calls_b ins ds) in XX. rewrite <- (calls_b ins' ds) in XX'. rewrite <- (calls_a ins ds) in Y. rewrite <- (calls_a ins' ds) in Y'.
    destruct (xsched_run r0 r1 _ threads csz psz _ rs H pub_mac _ acsz apsz AG AH coins sd _ xp_init _ _ XX Y) as [os S1].
    destruct (xsched_run r0 r1 _ threads csz psz _ rs H pub_mac _ acsz apsz AG AH coins sd _ xp_init _ _ XX' Y') as [os' S2].
    assert (Xl : Forall2 xop_like (xfill ds (xwith_inputs ins prog)) (xfill ds (xwith_inputs ins' prog))).
    { apply fill_xlike. apply with_like; [apply inputs_like|apply AWireHide.ainputs_like]. }
    assert (Eo : os = os').
    { refine (@xsched_same r0 r1 _ _ key threads csz psz _ _ (fun _ => []) rs G H pub_mac _ _ acsz apsz AG AH coins sd Hth Hcsz HH (Ho1 ru) (Ho1 ru') rs_lt Hp Hac _ _ _ _ _ _ _ _ Xl _ _ S1 S2 Ev Eva);
        [split; repeat split|repeat split]. }
    subst os'.
    set (dl := map (fun j => nth j (e_digests eF) []) (seq 0 (nchal os))).
    assert (Ldl : length dl = nchal os) by (unfold dl; now rewrite map_length, seq_length).
    assert (Nth : forall i h, nth_error dl i = Some h -> h = nth i (e_digests eF) []).
    { intros i h E. assert (Li : i < nchal os) by (rewrite <- Ldl; apply nth_error_Some; now rewrite E).
      unfold dl in E. rewrite (map_nth_error _ i (seq 0 (nchal os)) (d := i)) in E; [now injection E|].
      rewrite (nth_error_nth' _ 0) by (now rewrite seq_length). now rewrite seq_nth by exact Li. }
    assert (Sd : seeds_are G sd 0 dl).
    { intros i h E. cbn. unfold sd. now rewrite (Nth i h E). }
    pose proof (@xprv_follow_data r0 r1 (mac key d u) key threads csz psz (omac rkey d ru) (omac rkey d ru) rs G H pub_mac (vole_block (val_of au) (mac_of akey ad au)) acsz apsz AG AH coins Hth Hcsz HH (Ho1 ru) rs_lt cb_lt Hac sd _ _ xp_init _ _ dl
      (fill_like (xwith_inputs ins prog) ds) S1 Sd Ldl) as F1.
    pose proof (@xprv_follow_data r0 r1 (mac key d u') key threads csz psz (omac rkey d ru') (omac rkey d ru') rs G H pub_mac (vole_block (val_of au') (mac_of akey ad au')) acsz apsz AG AH coins Hth Hcsz HH (Ho1 ru') rs_lt cb_lt Hac sd _ _ xp_init _ _ dl
      (fill_like (xwith_inputs ins' prog) ds) S2 Sd Ldl) as F2.
    assert (En : n_s n = eF) by (unfold eF; now rewrite <- Et).
    destruct (BWireHide.lock_run bs br reset NB gs gr _ _ V _ dl _ _ eF F1 F2) with (k := k) (n := n) as (n' & Rn & E1 & E2 & E3 & E4 & E5 & _).
    - intros i h h' A B. rewrite (Nth i h' B). symmetry. now apply nth_error_nth.
    - intros i x x' A B Lx. rewrite compile_app, exp_s_app in B. cbn [compile flat_map compile1 app exp_s] in B. rewrite app_nil_r in B.
      set (D := data_to true (xfill ds (xwith_inputs ins prog))).
      assert (U0 : uinv D [] xp_init (xfill ds (xwith_inputs ins prog))) by (split; [reflexivity|]; split; [reflexivity|]; split; [reflexivity|]; exists []; split; reflexivity).
      rewrite (@xsched_up r0 r1 _ key threads csz psz _ (fun _ => []) rs G H pub_mac _ acsz apsz AG AH coins sd D Hth Hcsz Hp Hac _ _ _ _ [] S1 U0) in B.
      cbn [xp_init xp_b xp_a bp_init ap_init bp_poly pp_buf ap_buf ap_poly length] in B. rewrite fill_u in B.
      rewrite (uroles_like psz acsz apsz (xwith_inputs ins prog) prog) in B by (apply with_self; [apply inputs_like0|apply ainputs_like0]).
      destruct (uexp_nth _ _ _ _ _ B) as (r & Er & Ex). cbn [app] in Ex. injection Ex as Ex.
      assert (Rx : R r (ucount r (firstn i UR)) = x).
      { unfold R, u_of. apply upick_nth; [exact Er|]. now rewrite (map_nth_error _ _ _ A). }
      pose proof (R_bytes r (ucount r (firstn i UR))) as Bx. rewrite Rx in Bx. subst x'. fold UR in Lx |- *.
      assert (Blk : forall y : list N, length y = 16 -> firstn 16 y = y) by (intros y Ly; rewrite <- Ly; apply firstn_all).
      destruct r; cbn [uex] in *.
      + rewrite enc_block_len in Lx. unfold rs. rewrite Rx, (Blk x Lx). symmetry. now apply enc_dec.
      + rewrite enc_block_len in Lx. unfold cb. rewrite Rx, (Blk x Lx). symmetry. now apply enc_dec.
      + rewrite enc64_len in Lx. rewrite AWireHide.mod1_small by apply pb_lt. unfold pb. rewrite Rx. symmetry. now apply AWireHide.enc64_dec.
      + rewrite <- Rx in Lx |- *. symmetry. exact (fill_nth _ ds _ Lx).
    - exact Hn.
    - rewrite En. apply prefix_refl.
    - rewrite En. apply prefix_refl.
    - exists n'. split; [exact Rn|]. unfold outside in *. now rewrite E1, E2, E3, E4, E5.
  Qed.
  Lemma xreach_one_to_one ins ins' outs : bouts (bwith_inputs (fst ins) (bcalls prog)) = bouts (bwith_inputs (fst ins') (bcalls prog)) ->
    all_hold (brels (bwith_inputs (fst ins) (bcalls prog))) = true -> all_hold (brels (bwith_inputs (fst ins') (bcalls prog))) = true ->
    witness (acalls prog) (snd ins) outs -> witness (acalls prog) (snd ins') outs ->
    exists E, one_to_one (reach ins) (reach ins') E.
  Proof.
    intros Ho Ha Ha' W W'.
    assert (P64 : forall h, (AWireHide.pchal pb h < 2 ^ 64)%N) by (intro; eapply N.lt_trans; [apply pb_lt|reflexivity]).
    destruct (aview_bijection pub_mac akey ad threads acsz apsz (AWireHide.chal AG cb) (AWireHide.pchal pb) (acalls prog) Hpm P64 Hkd Haok (snd ins) (snd ins') outs W W') as (phi & psi & A & B & C).
    assert (Ex : forall i u, exists p, aH i u = Some p) by (intros i u; exact (ahonest_exists pub_mac akey ad threads acsz apsz (AWireHide.chal AG cb) (AWireHide.pchal pb) (acalls prog) Haok i u)).
    exists (fun w w' => (exists p p', bH (fst ins) (fst (fst w)) (snd (fst w)) p /\ bH (fst ins') (fst (fst w')) (snd (fst w')) p' /\ bview p = bview p') /\
      fvec (aentropy acsz apsz (acalls prog)) (snd w) /\ snd w' = phi (snd w)).
    assert (Fn : forall i u ru p q, bH i u ru p -> bH i u ru q -> p = q) by (intros i u ru p q (_ & _ & Q1) (_ & _ & Q2); congruence).
    split; [|split; [|split]].
    - intros [[u ru] au] Hw. pose proof Hw as (Lu & Lr & Fu & _). destruct (bh_defined (fst ins) u ru Lu Lr) as [p Bp].
      destruct (bh_transfer r0 r1 key rkey d threads csz psz sd rs (bcalls prog) Hkey Hrkey Hd Hp Wf Hok (fst ins) (fst ins') u ru p Ho Ha Ha' Bp) as (u' & ru' & p' & Bp' & Ev).
      exists (u', ru', phi au). cbn [fst snd]. split; [|split; [exists p, p'; auto|auto]].
      destruct (Ex (snd ins) au) as [a Ea], (Ex (snd ins') (phi au)) as [a' Ea'].
      refine (xreach_transfer ins ins' u ru au u' ru' (phi au) p p' a a' Bp Bp' (eq_sym Ev) Ea Ea' (C au a a' Fu Ea Ea') _ Hw). now apply A.
    - intros [[u ru] au] Hw. pose proof Hw as (Lu & Lr & Fu & _). destruct (bh_defined (fst ins') u ru Lu Lr) as [p Bp].
      destruct (bh_transfer r0 r1 key rkey d threads csz psz sd rs (bcalls prog) Hkey Hrkey Hd Hp Wf Hok (fst ins') (fst ins) u ru p (eq_sym Ho) Ha' Ha Bp) as (u' & ru' & p' & Bp' & Ev).
      destruct (B au Fu) as [F2 Eu]. exists (u', ru', psi au). cbn [fst snd]. split; [|split; [exists p', p; auto|split; [exact F2|now symmetry]]].
      destruct (Ex (snd ins') au) as [a Ea], (Ex (snd ins) (psi au)) as [a' Ea'].
      assert (Vv : aview a' = aview a) by (apply (C (psi au) a' a F2 Ea'); now rewrite Eu).
      exact (xreach_transfer ins' ins u ru au u' ru' (psi au) p p' a a' Bp Bp' (eq_sym Ev) Ea Ea' (eq_sym Vv) F2 Hw).
    - intros [[u ru] au] [[u1 ru1] au1] [[u2 ru2] au2] ((p & p1 & P1 & P2 & P3) & _ & E1) ((q & p2 & P1' & P2' & P3') & _ & E2). cbn [fst snd] in *. subst au1 au2. pose proof (Fn _ _ _ _ _ P1 P1'). subst q.
      destruct (bh_unique r0 r1 key rkey d threads csz psz sd rs (bcalls prog) Hkey Hrkey Hd Hp Wf Hok (fst ins') _ _ _ _ _ _ P2 P2' ltac:(congruence)) as (-> & -> & _). reflexivity.
    - intros [[u1 ru1] au1] [[u2 ru2] au2] [[u ru] au] ((p1 & p & P2 & P1 & P3) & Fa & E1) ((p2 & q & P2' & P1' & P3') & Fb & E2). cbn [fst snd] in *. pose proof (Fn _ _ _ _ _ P1 P1'). subst q.
      destruct (bh_unique r0 r1 key rkey d threads csz psz sd rs (bcalls prog) Hkey Hrkey Hd Hp Wf Hok (fst ins) _ _ _ _ _ _ P2 P2' ltac:(congruence)) as (-> & -> & _).
      destruct (A au1 Fa) as [_ Q1], (A au2 Fb) as [_ Q2]. congruence.
  Qed.
End Main.
