(** Shadow execution of the arithmetic session: authenticated pairs without Delta, and the
    simulation of the verifier's run for every Delta. *)
From Coq Require Import NArith List Bool Arith Lia Ring.
From Verif Require Import Word WordProofs FpModel FpProofs PolyRoots ListUtil Prime61 ArithModel ArithSpec ArithProofs.
Import ListNotations.
Local Open Scope N_scope.
Ltac Zify.zify_post_hook ::= idtac.
Add Ring fp_ring : fp_rt.

(** * Sums over worker ranges *)
Definition rsum (chi : nat -> nat -> list fp) (rs : list (nat * nat)) (l : list fp) : fp :=
  fold_right padd p0 (map (fun ir => fdot (chi (fst ir) (snd (snd ir))) (aseg (fst (snd ir)) (snd (snd ir)) l))
                          (combine (seq 0 (length rs)) rs)).
Lemma aseg_map {A B} (f : A -> B) s n l : aseg s n (map f l) = map f (aseg s n l).
Proof. unfold aseg. now rewrite skipn_map, firstn_map. Qed.
Lemma aseg_in {A} s n (l : list A) x : In x (aseg s n l) -> In x l.
Proof.
  unfold aseg. intro H. rewrite <- (firstn_skipn s l), in_app_iff. right.
  rewrite <- (firstn_skipn n (skipn s l)), in_app_iff. now left.
Qed.
Lemma aseg_clt s n l : clt l -> clt (aseg s n l).
Proof. unfold clt. rewrite !Forall_forall. intros H x Hx. apply H. eapply aseg_in; eauto. Qed.
Lemma clt_map_F d (buf : list (N * N * N)) its :
  Forall2 (fun g t => itrel d (a_ver_term d g) t) buf its ->
  clt (map (a_ver_term d) buf) /\ map toF (map (a_ver_term d) buf) = map (Bof d) its.
Proof.
  induction 1 as [|g t b l [H1 H2] _ [IH1 IH2]]; [split; [constructor|reflexivity]|]. split; [now constructor|].
  cbn [map]. now rewrite H2, IH2.
Qed.
Lemma clt_poly_F d buf its : Forall2 (itrel d) buf its ->
  clt buf /\ map toF buf = map (Bof d) its.
Proof.
  induction 1 as [|g t b l [H1 H2] _ [IH1 IH2]]; [split; [constructor|reflexivity]|]. split; [now constructor|].
  cbn [map]. now rewrite H2, IH2.
Qed.
Definition chiF (seed : nat -> N) (i n : nat) : list fp := map toF (a_chi (seed i) n).
Lemma a_chi_lt s n : clt (a_chi s n).
Proof. apply chi_lt. rewrite mod1_correct by apply lo64_lt. apply mod_PR_lt. Qed.
Lemma ver_sum_ok d buf its rs seed :
  Forall2 (fun g t => itrel d (a_ver_term d g) t) buf its ->
  a_ver_sum d buf rs seed < PR /\ toF (a_ver_sum d buf rs seed) = rsum (chiF seed) rs (map (Bof d) its).
Proof.
  intro H. destruct (clt_map_F d buf its H) as [Hc He]. unfold a_ver_sum, rsum.
  assert (G : forall l acc, acc < PR ->
    fold_left (fun acc ir => add_mod acc (a_ver_range d buf (fst (snd ir)) (snd (snd ir)) (seed (fst ir)))) l acc < PR /\
    toF (fold_left (fun acc ir => add_mod acc (a_ver_range d buf (fst (snd ir)) (snd (snd ir)) (seed (fst ir)))) l acc)
    = padd (toF acc) (fold_right padd p0 (map (fun ir => fdot (chiF seed (fst ir) (snd (snd ir)))
        (aseg (fst (snd ir)) (snd (snd ir)) (map (Bof d) its))) l))).
  { induction l as [|[i [st n]] l IH]; intros acc Ha; cbn [fold_left map fold_right fst snd].
    - split; [easy|]. ring.
    - assert (R : a_ver_range d buf st n (seed i) < PR /\ toF (a_ver_range d buf st n (seed i))
                  = fdot (chiF seed i n) (aseg st n (map (Bof d) its))).
      { unfold a_ver_range. destruct (a_acc_ok (map (a_ver_term d) (aseg st n buf)) (a_chi (seed i) n) 0) as [R1 R2].
        - reflexivity.
        - rewrite <- aseg_map. now apply aseg_clt.
        - apply a_chi_lt.
        - split; [easy|]. rewrite R2, toF_0, <- aseg_map, <- aseg_map, He. unfold chiF. ring. }
      destruct R as [R1 R2]. destruct (IH (add_mod acc (a_ver_range d buf st n (seed i)))) as [I1 I2].
      { apply am_lt; lia. }
      split; [easy|]. rewrite I2, am_F, R2 by lia. ring. }
  destruct (G (combine (seq 0 (length rs)) rs) 0) as [G1 G2]; [reflexivity|].
  split; [easy|]. rewrite G2, toF_0. ring.
Qed.
Lemma rsum_Bof d chi rs its :
  rsum chi rs (map (Bof d) its) =
  padd (psub (rsum chi rs (map iA0 its)) (pmul (rsum chi rs (map iA1 its)) (toF d)))
       (pmul (rsum chi rs (map iE its)) (pmul (toF d) (toF d))).
Proof.
  unfold rsum. induction (combine (seq 0 (length rs)) rs) as [|ir l IH]; cbn [map fold_right]; [ring|].
  rewrite IH, !aseg_map, fdot_Bof. ring.
Qed.

(** * Polynomial items *)
Definition poly_item (xs ys : list pair) (cs : list N) (c0 : N) : item :=
  fold_right (fun t acc =>
      let x := fst (fst t) in let y := snd (fst t) in let c := toF (snd t) in
      (padd (pmul c (pmul (fst x) (fst y))) (iA0 acc),
       padd (pmul c (padd (pmul (fst x) (snd y)) (pmul (fst y) (snd x)))) (iA1 acc),
       padd (pmul c (pmul (snd x) (snd y))) (iE acc)))
    (p0, p0, toF c0) (combine (combine xs ys) cs).
Lemma Forall2_combine {A B} (P : A -> B -> Prop) xs xs' ys ys' (cs : list N) :
  Forall2 P xs xs' -> Forall2 P ys ys' ->
  Forall2 (fun a b => P (fst (fst a)) (fst (fst b)) /\ P (snd (fst a)) (snd (fst b)) /\ snd a = snd b)
          (combine (combine xs ys) cs) (combine (combine xs' ys') cs).
Proof.
  intro H. revert ys ys' cs. induction H as [|x x' xs xs' Hx H IH]; intros ys ys' cs Hy; [constructor|].
  destruct Hy as [|y y' ys ys' Hy Hys]; [constructor|]. destruct cs as [|c cs]; [constructor|].
  cbn [combine]. constructor; [now repeat split|]. now apply IH.
Qed.
Lemma combine_snd_clt {A} (l : list A) cs : clt cs -> Forall (fun t => snd t < PR) (combine l cs).
Proof.
  intro H. revert l. induction H as [|c cs Hc H IH]; intros [|a l]; cbn; constructor; auto.
Qed.
Lemma k_poly d kx ky xs ys c0 cs : d < PR -> Forall2 (krel d) kx xs -> Forall2 (krel d) ky ys ->
  c0 < PR -> clt cs -> itrel d (poly_ver d kx ky (c0 :: cs)) (poly_item xs ys cs c0).
Proof.
  intros Hd Hx Hy H0 Hc. unfold poly_ver, poly_item. cbn [tl hd]. cbv zeta.
  pose proof (Forall2_combine _ _ _ _ _ cs Hx Hy) as F. pose proof (combine_snd_clt (combine kx ky) cs Hc) as S.
  assert (Hdd : mult_mod d d < PR) by (apply mm_lt; lia).
  assert (Hcd : mult_mod c0 (mult_mod d d) < PR) by (apply mm_lt; lia).
  assert (G : forall lk l, Forall2 (fun a b => krel d (fst (fst a)) (fst (fst b)) /\
      krel d (snd (fst a)) (snd (fst b)) /\ snd a = snd b) lk l -> Forall (fun t => snd t < PR) lk ->
    forall acc, acc < PR ->
    let r := fold_left (fun acc xyc => add_mod acc (mult_mod (snd xyc)
               (mult_mod (lo64 (fst (fst xyc))) (lo64 (snd (fst xyc)))))) lk acc in
    r < PR /\ padd (toF r) (toF (mult_mod c0 (mult_mod d d))) = padd (toF acc) (Bof d (fold_right (fun t acc =>
      let x := fst (fst t) in let y := snd (fst t) in let c := toF (snd t) in
      (padd (pmul c (pmul (fst x) (fst y))) (iA0 acc),
       padd (pmul c (padd (pmul (fst x) (snd y)) (pmul (fst y) (snd x)))) (iA1 acc),
       padd (pmul c (pmul (snd x) (snd y))) (iE acc)))
      (p0, p0, toF c0) l))).
  { induction 1 as [|[[a b] c] [[x y] c'] lk l [E1 [E2 E3]] _ IH]; intros Hs acc Ha; cbv zeta.
    - cbn [fold_left fold_right]. split; [easy|]. rewrite !mm_F by lia.
      unfold Bof, iA0, iA1, iE. cbn [fst snd]. ring.
    - cbn [fst snd] in *. subst c'. inversion_clear Hs as [|? ? Hs1 Hs2]. cbn [snd] in Hs1.
      destruct E1 as [L1 E1], E2 as [L2 E2].
      cbn [fold_left fst snd]. rewrite !lo_id by lia.
      pose proof (mm_lt a b ltac:(lia) ltac:(lia)).
      pose proof (mm_lt c (mult_mod a b) ltac:(lia) ltac:(lia)).
      destruct (IH Hs2 (add_mod acc (mult_mod c (mult_mod a b)))) as [I1 I2].
      { apply am_lt; lia. }
      split; [easy|]. rewrite I2, am_F, !mm_F, E1, E2 by lia.
      cbn [fold_right fst snd]. cbv zeta. match goal with |- context[fold_right ?f ?a l] => generalize (fold_right f a l) end. intro T. unfold Bof, iA0, iA1, iE, kf. cbn [fst snd]. ring. }
  destruct (G _ _ F S 0) as [G1 G2]; [reflexivity|]. cbv zeta in G1, G2.
  split; [apply am_lt; lia|]. rewrite am_F by lia. rewrite G2, toF_0. ring.
Qed.
Lemma inner_as_poly_ver d xs ys c : d < PR -> Forall (fun x => x < PR) xs -> Forall (fun x => x < PR) ys ->
  length ys = length xs ->
  inner_ver d xs ys c = poly_ver d xs ys (c :: ones (length xs)).
Proof.
  intros Hd Hx Hy Hl. unfold inner_ver, poly_ver. cbn [tl hd]. cbv zeta. f_equal.
  generalize 0 as acc. revert ys Hy Hl. induction Hx as [|x xs Hx H IH]; intros ys Hy Hl acc; [reflexivity|].
  destruct ys as [|y ys]; [discriminate|]. inversion_clear Hy. cbn [length combine repeat ones fold_left fst snd].
  replace (mult_mod 1 (mult_mod (lo64 x) (lo64 y))) with (mult_mod (lo64 x) (lo64 y)).
  - apply IH; auto.
  - rewrite !lo_id by lia. pose proof (mm_lt x y ltac:(lia) ltac:(lia)).
    rewrite (mult_mod_ok 1) by (unfold PR in *; lia). rewrite N.mul_1_l, N.mod_small; auto.
Qed.
Lemma krel_lt d ks l : Forall2 (krel d) ks l -> Forall (fun x => x < PR) ks.
Proof. induction 1 as [|? ? ? ? [H _]]; constructor; auto. Qed.
Lemma F2_length {A B} (P : A -> B -> Prop) l l' : Forall2 P l l' -> length l = length l'.
Proof. induction 1; cbn; auto. Qed.
Lemma k_inner d kx ky xs ys c : d < PR -> Forall2 (krel d) kx xs -> Forall2 (krel d) ky ys ->
  length ys = length xs -> c < PR ->
  itrel d (inner_ver d kx ky c) (poly_item xs ys (ones (length xs)) c).
Proof.
  intros Hd Hx Hy Hl Hc. rewrite inner_as_poly_ver; eauto using krel_lt.
  - rewrite (F2_length _ _ _ Hx). apply k_poly; auto. clear. induction (length xs); constructor; auto. reflexivity.
  - now rewrite (F2_length _ _ _ Hx), (F2_length _ _ _ Hy).
Qed.

(** * Check instances *)
Record cinst := { ci_items : list item; ci_rs : list (nat * nat); ci_seed : nat -> N;
                  ci_ope : pair; ci_msg : N * N }.
Definition ci_W (d : N) (ci : cinst) : fp := rsum (chiF (ci_seed ci)) (ci_rs ci) (map (Bof d) (ci_items ci)).
Definition ci_acc (d : N) (ci : cinst) : bool :=
  a_ver_accept d (fv (ci_W d ci)) (fv (kf d (ci_ope ci))) (ci_msg ci).
Definition rev_mac (d : N) (r : pair * N) : N := add_mod (mult_mod (snd r) d) (fv (kf d (fst r))).

Record asst := { s_w : list pair; s_buf : list item; s_poly : list item; s_rev : list (pair * N);
                 s_exp : list (N * N); s_outs : list N; s_vole : nat; s_chk : nat; s_pchk : nat;
                 s_words : nat; s_m : list cinst; s_p : list cinst }.
Definition apair (ws : list pair) (i : nat) : pair := nth i ws (p0, p0).
Section Shadow.
  Variables (pub_mac : N) (pU pMac : nat -> N) (threads csz psz : nat).
  Variables (seeds : nat -> nat -> N) (pseeds : nat -> N) (words : nat -> N).
  Variables chkmsg pchkmsg : nat -> N * N.
  Definition sV (i : nat) : pair := (toF (pMac i), toF (pU i)).
  Definition s_manage (s : asst) : option asst :=
    match a_ranges threads (length (s_buf s)) with
    | None => None
    | Some rs =>
        Some {| s_w := s_w s; s_buf := s_buf s; s_poly := s_poly s; s_rev := s_rev s; s_exp := s_exp s;
                s_outs := s_outs s; s_vole := S (s_vole s); s_chk := S (s_chk s); s_pchk := s_pchk s;
                s_words := s_words s;
                s_m := s_m s ++ [{| ci_items := s_buf s; ci_rs := rs; ci_seed := seeds (s_chk s);
                                    ci_ope := sV (s_vole s); ci_msg := chkmsg (s_chk s) |}];
                s_p := s_p s |}
    end.
  Definition s_clear (s : asst) : asst :=
    {| s_w := s_w s; s_buf := []; s_poly := s_poly s; s_rev := s_rev s; s_exp := s_exp s;
       s_outs := s_outs s; s_vole := s_vole s; s_chk := s_chk s; s_pchk := s_pchk s; s_words := s_words s;
       s_m := s_m s; s_p := s_p s |}.
  Definition s_precheck (s : asst) : option asst :=
    if Nat.eqb (length (s_buf s)) csz
    then match s_manage s with None => None | Some s' => Some (s_clear s') end else Some s.
  Definition s_batch (s : asst) : asst :=
    match s_poly s with
    | [] => s
    | q => {| s_w := s_w s; s_buf := s_buf s; s_poly := []; s_rev := s_rev s; s_exp := s_exp s;
              s_outs := s_outs s; s_vole := S (s_vole s); s_chk := s_chk s; s_pchk := S (s_pchk s);
              s_words := s_words s; s_m := s_m s;
              s_p := s_p s ++ [{| ci_items := q; ci_rs := [(0%nat, length q)];
                                  ci_seed := fun _ => lo64 (pseeds (s_pchk s));
                                  ci_ope := sV (s_vole s); ci_msg := pchkmsg (s_pchk s) |}] |}
    end.
  Definition s_queue (s : asst) (t : item) : asst :=
    let s := if Nat.leb psz (length (s_poly s)) then s_batch s else s in
    {| s_w := s_w s; s_buf := s_buf s; s_poly := s_poly s ++ [t]; s_rev := s_rev s; s_exp := s_exp s;
       s_outs := s_outs s; s_vole := s_vole s; s_chk := s_chk s; s_pchk := s_pchk s; s_words := s_words s;
       s_m := s_m s; s_p := s_p s |}.
  Definition s_add (s : asst) (w : pair) : asst :=
    {| s_w := s_w s ++ [w]; s_buf := s_buf s; s_poly := s_poly s; s_rev := s_rev s; s_exp := s_exp s;
       s_outs := s_outs s; s_vole := s_vole s; s_chk := s_chk s; s_pchk := s_pchk s; s_words := s_words s;
       s_m := s_m s; s_p := s_p s |}.
  Definition s_new (s : asst) : pair :=
    (toF (pMac (s_vole s)), psub (toF (pU (s_vole s))) (toF (words (s_words s)))).
  Definition s_reveal (s : asst) (i : nat) (e : option N) : asst :=
    {| s_w := s_w s; s_buf := s_buf s; s_poly := s_poly s;
       s_rev := s_rev s ++ [(apair (s_w s) i, words (s_words s))];
       s_exp := match e with None => s_exp s | Some e => s_exp s ++ [(words (s_words s), e)] end;
       s_outs := match e with None => s_outs s ++ [words (s_words s)] | Some _ => s_outs s end;
       s_vole := s_vole s; s_chk := s_chk s; s_pchk := s_pchk s; s_words := S (s_words s);
       s_m := s_m s; s_p := s_p s |}.
  Definition s_step (s : asst) (g : agate) : option asst :=
    let v := apair (s_w s) in
    match g with
    | AIn _ => Some {| s_w := s_w s ++ [s_new s]; s_buf := s_buf s; s_poly := s_poly s; s_rev := s_rev s;
                       s_exp := s_exp s; s_outs := s_outs s; s_vole := S (s_vole s); s_chk := s_chk s;
                       s_pchk := s_pchk s; s_words := S (s_words s); s_m := s_m s; s_p := s_p s |}
    | APub a => Some (s_add s (toF pub_mac, toF a))
    | AAdd i j => Some (s_add s (padd (fst (v i)) (fst (v j)), padd (snd (v i)) (snd (v j))))
    | AMulC i c => Some (s_add s (pmul (fst (v i)) (toF c), pmul (snd (v i)) (toF c)))
    | ASub i j => Some (s_add s (psub (fst (v i)) (fst (v j)), psub (snd (v i)) (snd (v j))))
    | AAddC i c => Some (s_add s (fst (v i), padd (snd (v i)) (toF c)))
    | AMul i j =>
        match s_precheck s with
        | None => None
        | Some s =>
            Some {| s_w := s_w s ++ [s_new s]; s_buf := s_buf s ++ [mul_item (v i) (v j) (s_new s)];
                    s_poly := s_poly s; s_rev := s_rev s; s_exp := s_exp s; s_outs := s_outs s;
                    s_vole := S (s_vole s); s_chk := s_chk s; s_pchk := s_pchk s; s_words := S (s_words s);
                    s_m := s_m s; s_p := s_p s |}
        end
    | AReveal i => Some (s_reveal s i None)
    | ACheck i e => Some (s_reveal s i (Some e))
    | AZero i => Some {| s_w := s_w s; s_buf := s_buf s; s_poly := s_poly s;
                         s_rev := s_rev s ++ [(v i, 0)]; s_exp := s_exp s; s_outs := s_outs s;
                         s_vole := s_vole s; s_chk := s_chk s; s_pchk := s_pchk s; s_words := s_words s;
                         s_m := s_m s; s_p := s_p s |}
    | APoly xs ys coeff => Some (s_queue s (poly_item (map v xs) (map v ys) (tl coeff) (hd 0 coeff)))
    | AInner xs ys c => Some (s_queue s (poly_item (map v xs) (map v ys) (ones (length xs)) c))
    end.
  Definition s_init : asst :=
    {| s_w := []; s_buf := []; s_poly := []; s_rev := []; s_exp := []; s_outs := []; s_vole := 1;
       s_chk := 0; s_pchk := 0; s_words := 0; s_m := []; s_p := [] |}.
  Fixpoint s_run (s : asst) (c : list agate) : option asst :=
    match c with
    | [] => Some s
    | g :: c' => match s_step s g with None => None | Some s' => s_run s' c' end
    end.
  Definition s_final (s : asst) : option asst :=
    let s := s_batch s in match s_buf s with [] => Some s | _ => s_manage s end.
  Definition s_exec (c : list agate) : option asst :=
    match s_run s_init c with None => None | Some s => s_final s end.

  (** * Simulation of the verifier *)
  Variable d : N.
  Hypothesis Hd : d < PR.
  Hypothesis Hpm : pub_mac < PR.
  Definition exp_bad (e : N * N) : bool := negb (N.eqb (snd e) (fst e)).
  Record vsim (v : avst) (s : asst) : Prop := {
    vs_w : Forall2 (krel d) (av_w v) (s_w s);
    vs_b : Forall2 (fun g t => itrel d (a_ver_term d g) t) (av_buf v) (s_buf s);
    vs_q : Forall2 (itrel d) (av_poly v) (s_poly s);
    vs_h : av_hash v = map (rev_mac d) (s_rev s);
    vs_v : av_vole v = s_vole s; vs_c : av_chk v = s_chk s; vs_pc : av_pchk v = s_pchk s;
    vs_k : av_words v = s_words s; vs_o : av_outs v = s_outs s;
    vs_e : av_err v = existsb (fun ci => negb (ci_acc d ci)) (s_m s) || existsb exp_bad (s_exp s);
    vs_x : av_cheat v = existsb (fun ci => negb (ci_acc d ci)) (s_p s) }.
  Notation VK := (vole_key pU pMac d).
  Lemma sim_wire v s i : vsim v s -> krel d (awire (av_w v) i) (apair (s_w s) i).
  Proof.
    intro S. pose proof (vs_w _ _ S) as F. unfold awire, apair. clear S. revert i.
    induction F as [|k x ks xs Hk F IH]; intros [|i]; cbn; auto using k_zero.
  Qed.
  Lemma sim_wires v s is : vsim v s -> Forall2 (krel d) (awires (av_w v) is) (map (apair (s_w s)) is).
  Proof. intro S. induction is; cbn; constructor; auto. now apply sim_wire. Qed.
  Lemma fv_small x : x < PR -> fv (toF x) = x.
  Proof. intro. rewrite fv_toF. now apply N.mod_small. Qed.
  Lemma acc_eq W ope mx msg its rs seed :
    W < PR -> toF W = rsum (chiF seed) rs (map (Bof d) its) -> krel d ope mx ->
    a_ver_accept d W ope msg = ci_acc d {| ci_items := its; ci_rs := rs; ci_seed := seed; ci_ope := mx; ci_msg := msg |}.
  Proof.
    intros HW EW [Ho Eo]. unfold ci_acc, ci_W. cbn [ci_items ci_rs ci_seed ci_ope ci_msg].
    rewrite <- EW, <- Eo, !fv_small by easy. reflexivity.
  Qed.
  Lemma sim_manage v s : vsim v s ->
    match av_manage VK d threads seeds chkmsg v, s_manage s with
    | Some v', Some s' => vsim v' s' | None, None => True | _, _ => False end.
  Proof.
    intro S. unfold av_manage, s_manage. rewrite (F2_length _ _ _ (vs_b _ _ S)).
    destruct (a_ranges threads (length (s_buf s))) as [rs|]; [|easy].
    destruct (ver_sum_ok d (av_buf v) (s_buf s) rs (seeds (s_chk s)) (vs_b _ _ S)) as [W1 W2].
    destruct S; split; cbn; auto; try (f_equal; congruence).
    rewrite vs_e0, existsb_app. cbn [existsb]. rewrite orb_false_r.
    rewrite vs_c0, vs_v0. rewrite (acc_eq _ _ (sV (s_vole s)) _ (s_buf s) rs (seeds (s_chk s))); auto.
    - destruct (existsb _ (s_m s)), (existsb exp_bad (s_exp s)); cbn; auto; now rewrite ?orb_false_r, ?orb_true_r.
    - apply k_vole.
  Qed.
  Lemma sim_precheck v s : vsim v s ->
    match av_precheck VK d threads csz seeds chkmsg v, s_precheck s with
    | Some v', Some s' => vsim v' s' | None, None => True | _, _ => False end.
  Proof.
    intro S. unfold av_precheck, s_precheck. rewrite (F2_length _ _ _ (vs_b _ _ S)).
    destruct (Nat.eqb (length (s_buf s)) csz); [|easy].
    pose proof (sim_manage v s S) as M.
    destruct (av_manage VK d threads seeds chkmsg v) as [v'|], (s_manage s) as [s'|]; try easy.
    destruct M; split; cbn; auto.
  Qed.
  Lemma mod1_lo x : mod1 (lo64 x) = mod1 (lo64 (lo64 x)).
  Proof. unfold lo64 at 2. rewrite (N.mod_small (lo64 x)); [reflexivity|apply lo64_lt]. Qed.
  Lemma sim_batch v s : (forall k, pseeds k < W64) -> vsim v s ->
    vsim (av_batch VK d pseeds pchkmsg v) (s_batch s).
  Proof.
    intros Hp S. unfold av_batch, s_batch.
    pose proof (vs_q _ _ S) as Q. destruct (clt_poly_F d _ _ Q) as [Q1 Q2].
    destruct (av_poly v) as [|b bs] eqn:Eb; destruct (s_poly s) as [|t ts] eqn:Et; [easy|inversion Q|inversion Q|].
    pose proof (F2_length _ _ _ Q) as Hl.
    assert (Hseed : mod1 (pseeds (s_pchk s)) < PR) by (rewrite mod1_correct by apply Hp; apply mod_PR_lt).
    rewrite <- Eb, <- Et in *. clear Eb Et.
    destruct (inn_ok (uni_hash_coeff_gen (mod1 (pseeds (s_pchk s))) (length (s_poly s))) (av_poly v) 0) as [I1 I2].
    { reflexivity. } { easy. } { now apply chi_lt. }
    destruct S; split; cbn; auto; try (f_equal; congruence).
    rewrite vs_x0, existsb_app. cbn [existsb]. rewrite orb_false_r, vs_pc0, vs_v0, Hl. f_equal. f_equal.
    apply acc_eq; [exact I1| |apply k_vole].
    etransitivity; [exact I2|]. rewrite Q2, toF_0. unfold rsum. cbn [length seq combine map fold_right fst snd].
    unfold aseg. cbn [skipn]. rewrite firstn_all2 by (rewrite map_length; lia).
    unfold chiF, a_chi, lo64. rewrite !(N.mod_small (pseeds _) W64) by apply Hp.
    ring.
  Qed.
  Lemma sim_queue v s b t : (forall k, pseeds k < W64) -> vsim v s -> itrel d b t ->
    vsim (av_queue VK d psz pseeds pchkmsg v b) (s_queue s t).
  Proof.
    intros Hp S I. unfold av_queue, s_queue. rewrite (F2_length _ _ _ (vs_q _ _ S)).
    assert (S' : vsim (if Nat.leb psz (length (s_poly s)) then av_batch VK d pseeds pchkmsg v else v)
                      (if Nat.leb psz (length (s_poly s)) then s_batch s else s))
      by (destruct (Nat.leb _ _); [now apply sim_batch|easy]).
    revert S'. generalize (if Nat.leb psz (length (s_poly s)) then av_batch VK d pseeds pchkmsg v else v).
    generalize (if Nat.leb psz (length (s_poly s)) then s_batch s else s). clear S.
    intros s1 v1 S. destruct S; split; cbn; auto. apply Forall2_app; auto.
  Qed.
  Lemma sim_add v s k x : vsim v s -> krel d k x -> vsim (av_add v k) (s_add s x).
  Proof. intros S K. destruct S; split; cbn; auto. apply Forall2_app; auto. Qed.
  Lemma sim_reveal v s i e : vsim v s -> vsim (av_reveal d words v i e) (s_reveal s i e).
  Proof.
    intro S. pose proof (sim_wire v s i S) as [K1 K2]. destruct S; split; cbn; auto; try (f_equal; congruence).
    - rewrite map_app, vs_h0. cbn [map]. unfold rev_mac. cbn [fst snd].
      rewrite <- K2, fv_small by easy. rewrite !lo_id, vs_k0 by lia. reflexivity.
    - rewrite vs_o0, vs_k0. reflexivity.
    - rewrite vs_k0. destruct e; [|easy]. rewrite vs_e0, existsb_app. cbn [existsb].
      rewrite orb_false_r. unfold exp_bad at 3. cbn [fst snd]. now rewrite orb_assoc.
  Qed.
  Lemma sim_step v s g : (forall k, pseeds k < W64) -> wf_pub g ->
    match g with AIn _ | AMul _ _ => words (s_words s) <= PR | _ => True end ->
    vsim v s ->
    match av_step pub_mac VK d threads csz psz seeds pseeds words chkmsg pchkmsg v g, s_step s g with
    | Some v', Some s' => vsim v' s' | None, None => True | _, _ => False end.
  Proof.
    intros Hp Hwf Hw S. destruct g as [x|a|i j|i c|i j|i j|i c|i|i e|i|xs ys cf|xs ys c]; cbn [av_step s_step wf_pub] in *.
    - assert (K : krel d (a_ver_input d (VK (av_vole v)) (words (av_words v))) (s_new s)).
      { rewrite (vs_v _ _ S), (vs_k _ _ S). apply (k_input d Hd _ (sV (s_vole s))); [apply k_vole|easy]. }
      destruct S; split; cbn; auto; try (f_equal; congruence). apply Forall2_app; auto.
    - apply sim_add; auto. apply k_pub; auto. change (canon a) with (a < PR) in Hwf. lia.
    - apply sim_add; auto. apply k_add; auto; now apply sim_wire.
    - apply sim_add; auto. apply k_mulc; auto; [now apply sim_wire|]. change (canon c) with (c < PR) in Hwf. lia.
    - assert (Hk : forall s', s_precheck s = Some s' -> s_words s' = s_words s /\ s_w s' = s_w s).
      { unfold s_precheck, s_manage. intros s'. destruct (Nat.eqb _ _).
        - destruct (a_ranges _ _); [|discriminate]. intro E. injection E as <-. now split.
        - intro E. injection E as <-. now split. }
      pose proof (sim_precheck v s S) as P.
      destruct (av_precheck VK d threads csz seeds chkmsg v) as [v'|]; destruct (s_precheck s) as [s'|]; try easy.
      destruct (Hk s' eq_refl) as [Hk1 Hk2].
      assert (K : krel d (a_ver_mul d (VK (av_vole v')) (words (av_words v'))) (s_new s')).
      { rewrite (vs_v _ _ P), (vs_k _ _ P). apply (k_mul d Hd _ (sV (s_vole s'))); [apply k_vole|].
        now rewrite Hk1. }
      rewrite <- Hk2. pose proof (sim_wire v' s' i P). pose proof (sim_wire v' s' j P).
      destruct P; split; cbn; auto; try (f_equal; congruence).
      + apply Forall2_app; auto.
      + apply Forall2_app; auto. constructor; auto. now apply it_mul.
    - apply sim_add; auto. apply k_sub; auto; now apply sim_wire.
    - apply sim_add; auto. apply k_addc; auto; [now apply sim_wire|]. change (canon c) with (c < PR) in Hwf. lia.
    - now apply sim_reveal.
    - now apply sim_reveal.
    - pose proof (sim_wire v s i S) as [K1 K2]. destruct S; split; cbn; auto.
      rewrite map_app, vs_h0. cbn [map]. unfold rev_mac. cbn [fst snd].
      rewrite <- K2, fv_small by easy. f_equal. f_equal. rewrite lo_id by lia.
      rewrite mult_mod_ok by (unfold PR in *; lia). rewrite N.mul_0_l. change (0 mod PR) with 0.
      rewrite add_mod_correct by (unfold PR in *; lia). rewrite N.add_0_l. symmetry. now apply N.mod_small.
    - destruct Hwf as [W1 [W2 W3]]. apply sim_queue; auto.
      destruct cf as [|c0 cs]; [discriminate|]. cbn [tl hd].
      inversion_clear W3. apply k_poly; auto using sim_wires.
    - destruct Hwf as [W1 W2]. apply sim_queue; auto. 
      pose proof (k_inner d (awires (av_w v) xs) (awires (av_w v) ys) (map (apair (s_w s)) xs) (map (apair (s_w s)) ys) c Hd) as I.
      rewrite !map_length in I. apply I; auto using sim_wires.
  Qed.
  Lemma s_step_words s g s' : s_step s g = Some s' -> s_words s' =
    match g with AIn _ | AMul _ _ | AReveal _ | ACheck _ _ => S (s_words s) | _ => s_words s end.
  Proof.
    destruct g; cbn [s_step]; intro E; try (injection E as <-; reflexivity).
    - unfold s_precheck, s_manage in E. destruct (Nat.eqb _ _); [destruct (a_ranges _ _); [|discriminate]|];
        injection E as <-; reflexivity.
    - injection E as <-. unfold s_queue. cbn. destruct (Nat.leb _ _); [|easy]. unfold s_batch. now destruct (s_poly s).
    - injection E as <-. unfold s_queue. cbn. destruct (Nat.leb _ _); [|easy]. unfold s_batch. now destruct (s_poly s).
  Qed.
  Lemma sim_run c : (forall k, pseeds k < W64) -> Forall wf_pub c -> forall v s,
    words_ok words (s_words s) c -> vsim v s ->
    match av_run pub_mac VK d threads csz psz seeds pseeds words chkmsg pchkmsg v c, s_run s c with
    | Some v', Some s' => vsim v' s' | None, None => True | _, _ => False end.
  Proof.
    intros Hp. induction c as [|g c IH]; intros Hwf v s Hw S; cbn [av_run s_run]; [easy|].
    inversion_clear Hwf as [|? ? W1 W2].
    assert (Hg : match g with AIn _ | AMul _ _ => words (s_words s) <= PR | _ => True end)
      by (destruct g; cbn [words_ok] in Hw; auto; apply Hw).
    pose proof (sim_step v s g Hp W1 Hg S) as T.
    destruct (av_step _ _ _ _ _ _ _ _ _ _ _ v g) as [v'|]; destruct (s_step s g) as [s'|] eqn:Es; try easy.
    apply IH; auto. rewrite (s_step_words _ _ _ Es). destruct g; cbn [words_ok] in Hw; try easy; apply Hw.
  Qed.
  Lemma sim_exec c : (forall k, pseeds k < W64) -> Forall wf_pub c -> words_ok words 0 c ->
    match av_exec pub_mac VK d threads csz psz seeds pseeds words chkmsg pchkmsg c, s_exec c with
    | Some v', Some s' => vsim v' s' | None, None => True | _, _ => False end.
  Proof.
    intros Hp Hwf Hw. unfold av_exec, s_exec.
    assert (S0 : vsim av_init s_init) by (split; cbn; auto).
    pose proof (sim_run c Hp Hwf av_init s_init Hw S0) as R.
    destruct (av_run _ _ _ _ _ _ _ _ _ _ _ av_init c) as [v|]; destruct (s_run s_init c) as [s|]; try easy.
    unfold av_final, s_final. cbv zeta. pose proof (sim_batch v s Hp R) as B.
    pose proof (F2_length _ _ _ (vs_b _ _ B)) as Hl. pose proof (sim_manage _ _ B) as M.
    destruct (av_buf (av_batch VK d pseeds pchkmsg v)); destruct (s_buf (s_batch s)); try discriminate; auto.
  Qed.
End Shadow.
