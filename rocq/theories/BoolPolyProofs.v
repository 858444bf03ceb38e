(** Proofs about the boolean polynomial proofs. *)
From Coq Require Import NArith List Bool Arith Lia Ring.
From Verif Require Import Word WordProofs GF128 GF128Ring GF128Field PolyRoots BoolModel BoolSpec BoolProofs BoolAlg BoolThms BoolThms2
  BoolPolyModel BoolPolySpec.
Import ListNotations.
Ltac Zify.zify_post_hook ::= idtac.

(** * Batching *)
Lemma chunk_fuel_enough {A} n (l : list A) : 1 <= n -> forall f f', length l <= f -> length l <= f' ->
  chunk_fuel f n l = chunk_fuel f' n l.
Proof.
  intros Hn f. revert l. induction f as [|f IH]; intros l f' H H'.
  - destruct l; [destruct f'; reflexivity|cbn in H; lia].
  - destruct l as [|x l]; [destruct f'; reflexivity|].
    destruct f' as [|f']; [cbn in H'; lia|]. cbn [chunk_fuel]. f_equal.
    apply IH; rewrite skipn_length; cbn [length] in *; lia.
Qed.
Lemma chunks_cons {A} n (b l : list A) : 1 <= n -> length b = n -> chunks n (b ++ l) = b :: chunks n l.
Proof.
  intros Hn Hb. unfold chunks. destruct (b ++ l) as [|x r] eqn:E.
  - apply (f_equal (@length A)) in E. rewrite app_length in E. cbn in E. lia.
  - rewrite <- E. assert (Hl : length (b ++ l) = S (length r)) by now rewrite E.
    rewrite Hl. cbn [chunk_fuel]. rewrite E, <- E.
    rewrite <- Hb, firstn_app, firstn_all, Nat.sub_diag, skipn_app, skipn_all, Nat.sub_diag.
    cbn [firstn skipn app]. rewrite app_nil_r. f_equal. apply chunk_fuel_enough; try lia.
    rewrite app_length in Hl. lia.
Qed.
Lemma chunks_short {A} n (b : list A) : length b <= n -> chunks n b = match b with [] => [] | _ => [b] end.
Proof.
  intro H. unfold chunks. destruct b as [|x b]; [reflexivity|]. cbn [length chunk_fuel].
  rewrite firstn_all2, skipn_all2 by (cbn in *; lia). destruct (length b); reflexivity.
Qed.
Lemma chunks_map {A B} (f : A -> B) n l : chunks n (map f l) = map (map f) (chunks n l).
Proof.
  unfold chunks. rewrite map_length. generalize (length l) as k. intro k. revert l.
  induction k as [|k IH]; intros [|x l]; try reflexivity.
  cbn [map chunk_fuel]. rewrite <- (map_cons f x l), firstn_map, skipn_map, IH. reflexivity.
Qed.
Lemma chunks_nonempty {A} n (l : list A) b : 1 <= n -> In b (chunks n l) -> b <> [].
Proof.
  intro Hn. unfold chunks. generalize (length l) as k. intro k. revert l.
  induction k as [|k IH]; intros [|x l]; cbn [chunk_fuel In]; try easy.
  - intros [<-|[]]. discriminate.
  - intros [<-|H]; [|now apply IH in H]. destruct n; [lia|discriminate].
Qed.

Definition gitem {A} (bs : nat) (s : list (list A) * list A) (x : A) : list (list A) * list A :=
  if Nat.leb bs (length (snd s)) then (fst s ++ [snd s], [x]) else (fst s, snd s ++ [x]).
Definition gfin {A} (s : list (list A) * list A) : list (list A) :=
  match snd s with [] => fst s | b => fst s ++ [b] end.
Lemma gitem_chunks {A} bs (l : list A) : 1 <= bs -> forall done buf, length buf <= bs ->
  gfin (fold_left (gitem bs) l (done, buf)) = done ++ chunks bs (buf ++ l).
Proof.
  intros Hb. induction l as [|x l IH]; intros done buf Hl; cbn [fold_left].
  - rewrite app_nil_r, chunks_short by easy. unfold gfin. cbn [fst snd].
    destruct buf; [now rewrite app_nil_r|reflexivity].
  - unfold gitem at 2. cbn [fst snd]. destruct (Nat.leb_spec bs (length buf)).
    + rewrite IH by (cbn; lia). rewrite (chunks_cons bs buf (x :: l)) by lia. rewrite <- app_assoc. reflexivity.
    + rewrite IH by (rewrite app_length; cbn; lia). now rewrite <- app_assoc.
Qed.
Definition geninv {A} (s : list (list A) * list A) : Prop := Forall (fun b => b <> []) (fst s).

Definition imap {A B} (f : nat -> A -> B) (l : list A) : list B :=
  map (fun p => f (fst p) (snd p)) (combine (seq 0 (length l)) l).
Lemma combine_app {A B} (a a' : list A) (b b' : list B) : length a = length b ->
  combine (a ++ a') (b ++ b') = combine a b ++ combine a' b'.
Proof. revert b. induction a as [|x a IH]; intros [|y b] H; cbn in *; try lia; [easy|]. f_equal. apply IH. lia. Qed.
Lemma imap_snoc {A B} (f : nat -> A -> B) l x : imap f (l ++ [x]) = imap f l ++ [f (length l) x].
Proof.
  unfold imap. rewrite app_length, seq_app. cbn [length seq plus].
  rewrite combine_app by now rewrite seq_length. now rewrite map_app.
Qed.
Lemma imap_nth {A B} (f : nat -> A -> B) l k x : nth_error l k = Some x -> nth_error (imap f l) k = Some (f k x).
Proof.
  revert k. induction l as [|y l IH] using rev_ind; intros k H; [now destruct k|].
  rewrite imap_snoc. assert (Hl : length (imap f l) = length l).
  { unfold imap. rewrite map_length, combine_length, seq_length. lia. }
  destruct (Nat.lt_ge_cases k (length l)) as [Hk|Hk].
  - rewrite nth_error_app1 in * by lia. now apply IH.
  - rewrite nth_error_app2 in * by lia. rewrite Hl.
    destruct (k - length l) as [|[|]] eqn:E; cbn in *; try discriminate.
    injection H as ->. now replace (length l) with k by lia.
Qed.
Lemma imap_nth_inv {A B} (f : nat -> A -> B) l k y : nth_error (imap f l) k = Some y ->
  exists x, nth_error l k = Some x /\ y = f k x.
Proof.
  intro H. assert (Hl : length (imap f l) = length l).
  { unfold imap. rewrite map_length, combine_length, seq_length. lia. }
  assert (Hk : k < length l). { rewrite <- Hl. apply nth_error_Some. congruence. }
  destruct (nth_error l k) as [x|] eqn:E; [|apply nth_error_None in E; lia].
  exists x. split; [easy|]. rewrite (imap_nth _ _ _ _ E) in H. congruence.
Qed.

Section RunSim.
  Variables (bs : nat) (seeds : nat -> N).
  Section P.
    Variable ope : nat -> list N.
    Definition psim' (s : ppst) (g : list (list (N * N)) * list (N * N)) : Prop :=
      pp_buf s = snd g /\ pp_chk s = length (fst g) /\
      pp_msgs s = imap (fun k b => prv_check_sum b (seeds k) (ope k)) (fst g).
    Lemma psim_item s g x : 1 <= bs -> psim' s g -> psim' (pp_item bs seeds ope s x) (gitem bs g x).
    Proof.
      intros Hb (E1 & E2 & E3). unfold pp_item, gitem. rewrite E1.
      destruct (Nat.leb_spec bs (length (snd g))).
      - unfold pp_batch_check. rewrite E1. destruct (snd g) as [|y b] eqn:Eg; [cbn in *; lia|].
        unfold psim'. cbn [pp_buf pp_chk pp_msgs fst snd app].
        rewrite app_length, imap_snoc, E2, E3. cbn. split; [easy|]. split; [lia|easy].
      - unfold psim'. cbn [pp_buf pp_chk pp_msgs fst snd]. rewrite E1. auto.
    Qed.
    Lemma pp_msgs_chunks (cs : list (bcall N)) : 1 <= bs ->
      pp_msgs (pp_exec bs seeds ope cs) =
      imap (fun k b => prv_check_sum b (seeds k) (ope k)) (chunks bs (flat_map prv_items cs)).
    Proof.
      intro Hb. unfold pp_exec.
      assert (E : forall s, fold_left (pp_call bs seeds ope) cs s = fold_left (pp_item bs seeds ope) (flat_map prv_items cs) s).
      { induction cs as [|c cs IH]; intro s; [reflexivity|]. cbn [fold_left flat_map].
        rewrite fold_left_app. apply IH. }
      rewrite E. clear E. generalize (flat_map prv_items cs) as l. intro l.
      rewrite <- (app_nil_l l) at 2. rewrite <- (app_nil_l (chunks bs ([] ++ l))).
      rewrite <- gitem_chunks by (cbn; lia).
      assert (S : psim' {| pp_buf := []; pp_chk := 0; pp_msgs := [] |} (([], []) : list (list (N*N)) * list (N*N))).
      { repeat split. }
      revert S. generalize {| pp_buf := []; pp_chk := 0; pp_msgs := [] |} as s.
      generalize (([], []) : list (list (N * N)) * list (N * N)) as g.
      induction l as [|x l IH]; intros g s S; cbn [fold_left]; [|apply IH; now apply psim_item].
      destruct S as (E1 & E2 & E3). unfold pp_batch_check, gfin. rewrite E1.
      destruct (snd g); [easy|]. cbn [pp_msgs]. now rewrite imap_snoc, E2, E3.
    Qed.
  End P.
  Section V.
    Variables (d : N) (ope : nat -> list N) (msg : nat -> N * N).
    Definition vacc k (b : list N) : bool := ver_check_sum d b (seeds k) (ope k) (msg k).
    Definition vsim' (s : pvst) (g : list (list N) * list N) : Prop :=
      pv_buf s = snd g /\ pv_chk s = length (fst g) /\
      (pv_cheat s = [] <-> forallb (fun b => b) (imap vacc (fst g)) = true).
    Lemma vsim_item s g x : 1 <= bs -> vsim' s g -> vsim' (pv_item bs seeds d ope msg s x) (gitem bs g x).
    Proof.
      intros Hb (E1 & E2 & E3). unfold pv_item, gitem. rewrite E1.
      destruct (Nat.leb_spec bs (length (snd g))).
      - unfold pv_batch_check. rewrite E1. destruct (snd g) as [|y b] eqn:Eg; [cbn in *; lia|].
        unfold vsim'. cbn [pv_buf pv_chk pv_cheat fst snd app].
        rewrite app_length, imap_snoc, forallb_app, andb_true_iff, <- E3, E2. cbn [forallb].
        fold (vacc (length (fst g)) (y :: b)). rewrite andb_true_r.
        split; [easy|]. split; [cbn; lia|]. destruct (vacc _ _); [tauto|].
        split; [intro X; now destruct (pv_cheat s)|intros [_ X]; discriminate].
      - unfold vsim'. cbn [pv_buf pv_chk pv_cheat fst snd]. rewrite E1. auto.
    Qed.
    Lemma pv_cheat_chunks (cs : list (bcall N)) : 1 <= bs ->
      (pv_cheat (pv_exec bs seeds d ope msg cs) = [] <->
       forallb (fun b => b) (imap vacc (chunks bs (flat_map (ver_items d) cs))) = true).
    Proof.
      intro Hb. unfold pv_exec.
      assert (E : forall s, fold_left (pv_call bs seeds d ope msg) cs s = fold_left (pv_item bs seeds d ope msg) (flat_map (ver_items d) cs) s).
      { induction cs as [|c cs IH]; intro s; [reflexivity|]. cbn [fold_left flat_map].
        rewrite fold_left_app. apply IH. }
      rewrite E. clear E. generalize (flat_map (ver_items d) cs) as l. intro l.
      rewrite <- (app_nil_l l) at 2. rewrite <- (app_nil_l (chunks bs ([] ++ l))).
      rewrite <- gitem_chunks by (cbn; lia).
      assert (S : vsim' {| pv_buf := []; pv_chk := 0; pv_cheat := [] |} (([], []) : list (list N) * list N)).
      { repeat split. }
      revert S. generalize {| pv_buf := []; pv_chk := 0; pv_cheat := [] |} as s.
      generalize (([], []) : list (list N) * list N) as g.
      induction l as [|x l IH]; intros g s S; cbn [fold_left]; [|apply IH; now apply vsim_item].
      destruct S as (E1 & E2 & E3). unfold pv_batch_check, gfin. rewrite E1.
      destruct (snd g) as [|y b]; [easy|]. cbn [pv_cheat].
      rewrite imap_snoc, forallb_app, andb_true_iff, <- E3, E2. cbn [forallb].
      fold (vacc (length (fst g)) (y :: b)). rewrite andb_true_r.
      destruct (vacc _ _); [tauto|].
      split; [intro X; now destruct (pv_cheat s)|intros [_ X]; discriminate].
    Qed.
    Lemma pv_cheat_nil (cs : list (bcall N)) : 1 <= bs ->
      (pv_cheat (pv_exec bs seeds d ope msg cs) = [] <->
       forall k b, nth_error (chunks bs (flat_map (ver_items d) cs)) k = Some b -> vacc k b = true).
    Proof.
      intro Hb. rewrite pv_cheat_chunks by easy. rewrite forallb_forall. split.
      - intros H k b Hk. apply H. apply nth_error_In with k. now apply imap_nth.
      - intros H x Hx. apply In_nth_error in Hx. destruct Hx as [k Hk].
        apply imap_nth_inv in Hk. destruct Hk as (b & Hb' & ->). now apply H.
    Qed.
  End V.
End RunSim.

(** * Every call as a list of (constant, terms) *)
Definition plain_terms {W} (l : list (W * W)) : list (bool * (W * W)) := map (fun xy => (true, xy)) l.
Definition item_terms {W} (dflt : W) (c : bcall W) : list (bool * list (bool * (W * W))) :=
  match c with
  | BDeg2 x y k => [(hd false k, combine (tl k) (combine x y))]
  | BInn x y k => [(k, plain_terms (combine x y))]
  | BInnEq x y r s => [(false, plain_terms (combine x y ++ combine r s))]
  | BInnEq2 x y r s rr ss => [(false, plain_terms (combine x y ++ combine r s ++ [(rr, ss)]))]
  | BMulti x y r s w =>
      map (fun k => (false, plain_terms (combine (map (fun xi => nth k xi dflt) x) y ++ [(nth k r dflt, s)]))) (seq 0 w)
  end.
Lemma combine_map2 {A B C D} (f : A -> C) (g : B -> D) a : forall b,
  combine (map f a) (map g b) = map (fun p => (f (fst p), g (snd p))) (combine a b).
Proof. induction a as [|x a IH]; intros [|y b]; cbn; auto. now rewrite IH. Qed.
Definition tmap {V W} (f : V -> W) (t : bool * (V * V)) : bool * (W * W) :=
  (fst t, (f (fst (snd t)), f (snd (snd t)))).
Lemma combine_map_r {A B C} (f : B -> C) (a : list A) : forall b, combine a (map f b) = map (fun p => (fst p, f (snd p))) (combine a b).
Proof. induction a as [|x a IH]; intros [|y b]; cbn; auto. now rewrite IH. Qed.
Lemma plain_terms_map {V W} (f : V -> W) l : plain_terms (map (fun p => (f (fst p), f (snd p))) l) = map (tmap f) (plain_terms l).
Proof. unfold plain_terms. rewrite !map_map. reflexivity. Qed.
Lemma item_terms_map {V W} (f : V -> W) dv dw c : f dv = dw ->
  item_terms dw (bcall_map f c) = map (fun it => (fst it, map (tmap f) (snd it))) (item_terms dv c).
Proof.
  intro Hd. destruct c as [x y k|x y k|x y r s|x y r s rr ss|x y r s w]; cbn [bcall_map item_terms map fst snd].
  - rewrite combine_map2, combine_map_r. reflexivity.
  - now rewrite combine_map2, plain_terms_map.
  - rewrite !combine_map2, <- map_app, plain_terms_map. reflexivity.
  - rewrite !combine_map2. change [(f rr, f ss)] with (map (fun p => (f (fst p), f (snd p))) [(rr, ss)]).
    rewrite <- !map_app, plain_terms_map. reflexivity.
  - rewrite map_map. apply map_ext. intro k. cbn [fst snd]. f_equal.
    rewrite map_map. rewrite (map_ext (fun x0 => nth k (map f x0) dw) (fun x0 => f (nth k x0 dv))).
    2:{ intro xi. rewrite <- Hd. apply map_nth. }
    rewrite <- (map_map (fun x0 => nth k x0 dv) f), combine_map2.
    rewrite <- Hd, map_nth.
    change [(f (nth k r dv), f s)] with (map (fun p => (f (fst p), f (snd p))) [(nth k r dv, s)]).
    now rewrite <- map_app, plain_terms_map.
Qed.
Lemma inn_deg2 xy acc : prv_inn_term acc xy = prv_deg2_term acc (true, xy).
Proof. destruct xy. reflexivity. Qed.
Lemma fold_inn_deg2 l : forall acc, fold_left prv_inn_term l acc = fold_left prv_deg2_term (plain_terms l) acc.
Proof. induction l as [|xy l IH]; intro acc; [reflexivity|]. cbn [plain_terms map fold_left]. now rewrite inn_deg2, IH. Qed.
Lemma vinn_deg2 xy acc : ver_inn_term acc xy = ver_deg2_term acc (true, xy).
Proof. destruct xy. reflexivity. Qed.
Lemma fold_vinn_deg2 l : forall acc, fold_left ver_inn_term l acc = fold_left ver_deg2_term (plain_terms l) acc.
Proof. induction l as [|xy l IH]; intro acc; [reflexivity|]. cbn [plain_terms map fold_left]. now rewrite vinn_deg2, IH. Qed.
Lemma plain_terms_app {W} (a b : list (W * W)) : plain_terms (a ++ b) = plain_terms a ++ plain_terms b.
Proof. apply map_app. Qed.
Lemma prv_items_terms c : prv_items c = map (fun it => fold_left prv_deg2_term (snd it) (0, 0)%N) (item_terms 0%N c).
Proof.
  destruct c; cbn [prv_items item_terms map snd]; rewrite ?fold_inn_deg2, ?plain_terms_app, ?fold_left_app; try reflexivity.
  rewrite map_map. apply map_ext. intro k. cbn [snd].
    rewrite fold_inn_deg2, inn_deg2, plain_terms_app, fold_left_app. reflexivity.
Qed.
Lemma ver_items_terms d c :
  ver_items d c = map (fun it => ver_const d (fst it) (fold_left ver_deg2_term (snd it) 0%N)) (item_terms 0%N c).
Proof.
  destruct c; cbn [ver_items item_terms map fst snd]; rewrite ?fold_vinn_deg2, ?plain_terms_app, ?fold_left_app; try reflexivity.
  rewrite map_map. apply map_ext. intro k. cbn [fst snd].
    rewrite fold_vinn_deg2, vinn_deg2, plain_terms_app, fold_left_app. reflexivity.
Qed.
(** defect of one item *)
Definition tdef (t : bool * (bool * bool)) : bool := fst t && (fst (snd t) && snd (snd t)).
Lemma xsum_app a b : xsum (a ++ b) = xorb (xsum a) (xsum b).
Proof. induction a as [|x a IH]; cbn; [now destruct (xsum b)|]. rewrite IH. now destruct x, (xsum a), (xsum b). Qed.
Lemma tdef_plain l : map tdef (plain_terms l) = map (fun p => fst p && snd p) l.
Proof. unfold plain_terms. rewrite map_map. apply map_ext. now intros [[] []]. Qed.
Lemma defects_terms c : defects c = map (fun it => xorb (fst it) (xsum (map tdef (snd it)))) (item_terms false c).
Proof.
  destruct c; cbn [defects item_terms map fst snd]; unfold prods.
  - do 3 f_equal. rewrite combine_map_r, map_map. reflexivity.
  - now rewrite tdef_plain.
  - rewrite tdef_plain, map_app, xsum_app. now destruct (xsum _), (xsum _).
  - rewrite tdef_plain, !map_app, !xsum_app. cbn. do 1 f_equal.
    now destruct (xsum _), (xsum _), rr, ss.
  - rewrite map_map. apply map_ext. intro k. cbn [fst snd].
    rewrite tdef_plain, !map_app, !xsum_app. cbn. now destruct (xsum _), (nth k r false), s.
Qed.

(** * Shadow items *)
Notation sw := (N * bool)%type.
Definition sh_term (acc : N * N) (t : bool * (sw * sw)) : N * N :=
  let '(c, (x, y)) := t in
  (N.lxor (fst acc) (sel c (gfmul (fst x) (fst y))),
   N.lxor (snd acc) (sel c (N.lxor (sel (snd y) (fst x)) (sel (snd x) (fst y))))).
Definition sh_item (it : bool * list (bool * (sw * sw))) : N * N * bool :=
  (fold_left sh_term (snd it) (0, 0)%N, xorb (fst it) (xsum (map tdef (map (tmap snd) (snd it))))).
Definition sh_items (c : bcall sw) : list (N * N * bool) := map sh_item (item_terms (0%N, false) c).
Lemma toG_sel c b : toG (sel c b) = gmul (b2g c) (toG b).
Proof. destruct c; cbn [sel b2g]; [ring|]. rewrite toG_0. ring. Qed.
Lemma akey_kof d w : akey d w = kof d w. Proof. reflexivity. Qed.
Lemma sh_fold d l : forall A e B,
  toG B = gadd (gadd (toG (fst A)) (gmul (toG (snd A)) (toG d))) (gmul (b2g e) (gmul (toG d) (toG d))) ->
  toG (fold_left ver_deg2_term (map (tmap (akey d)) l) B) =
  gadd (gadd (toG (fst (fold_left sh_term l A))) (gmul (toG (snd (fold_left sh_term l A))) (toG d)))
       (gmul (b2g (xorb e (xsum (map tdef (map (tmap snd) l))))) (gmul (toG d) (toG d))).
Proof.
  induction l as [|[c [x y]] l IH]; intros A e B H; cbn [map fold_left xsum].
  - rewrite xorb_false_r. exact H.
  - rewrite (IH (sh_term A (c, (x, y))) (xorb e (tdef (tmap snd (c, (x, y)))))).
    + now rewrite xorb_assoc.
    + unfold tmap, tdef. cbn [fst snd ver_deg2_term sh_term].
      rewrite !toG_lxor, !toG_sel, !toG_lxor, !toG_sel, toG_gfmul, toG_gfmul, !akey_kof, !toG_kof, H, b2g_xor, !b2g_and.
      ring.
Qed.
Lemma ver_item_decomp d it :
  toG (ver_const d (fst it) (fold_left ver_deg2_term (map (tmap (akey d)) (snd it)) 0%N)) =
  let s := sh_item it in
  gadd (gadd (toG (fst (fst s))) (gmul (toG (snd (fst s))) (toG d))) (gmul (b2g (snd s)) (gmul (toG d) (toG d))).
Proof.
  unfold ver_const. rewrite toG_lxor, toG_sel, toG_gfmul.
  rewrite (sh_fold d (snd it) (0, 0)%N false 0%N) by (cbn [fst snd b2g]; rewrite toG_0; ring).
  cbn zeta. unfold sh_item. cbn [fst snd]. rewrite !b2g_xor. cbn [b2g]. ring.
Qed.
Lemma sh_items_ver d c :
  map toG (ver_items d (bcall_map (akey d) c)) =
  map (fun s => gadd (gadd (toG (fst (fst s))) (gmul (toG (snd (fst s))) (toG d))) (gmul (b2g (snd s)) (gmul (toG d) (toG d))))
      (sh_items c).
Proof.
  rewrite ver_items_terms, (item_terms_map _ (0%N, false)) by reflexivity.
  unfold sh_items. rewrite !map_map. apply map_ext. intro it. cbn [fst snd]. apply ver_item_decomp.
Qed.
Lemma sh_items_def c : map snd (sh_items c) = defects (bcall_map snd c).
Proof.
  rewrite defects_terms, (item_terms_map _ (0%N, false)) by reflexivity.
  unfold sh_items. rewrite !map_map. reflexivity.
Qed.
Lemma in_item_terms {W} (dw : W) c it t : In it (item_terms dw c) -> In t (snd it) ->
  (fst (snd t) = dw \/ In (fst (snd t)) (wires_of c)) /\ (snd (snd t) = dw \/ In (snd (snd t)) (wires_of c)).
Proof.
  assert (P : forall l, In t (plain_terms l) -> In (snd t) l).
  { intros l H. unfold plain_terms in H. apply in_map_iff in H. destruct H as (z & <- & H). exact H. }
  destruct c as [x y k|x y k|x y r s|x y r s rr ss|x y r s w]; cbn [item_terms wires_of]; intros H Ht.
  - destruct H as [<-|[]]. cbn [snd] in Ht. destruct t as [c [u v]]. apply in_combine_r in Ht.
    cbn [fst snd]. pose proof (in_combine_l _ _ _ _ Ht). pose proof (in_combine_r _ _ _ _ Ht).
    rewrite !in_app_iff. tauto.
  - destruct H as [<-|[]]. apply P in Ht. destruct t as [c [u v]]. cbn [fst snd] in *.
    pose proof (in_combine_l _ _ _ _ Ht). pose proof (in_combine_r _ _ _ _ Ht). rewrite !in_app_iff. tauto.
  - destruct H as [<-|[]]. apply P in Ht. destruct t as [c [u v]]. cbn [fst snd] in *. rewrite in_app_iff in Ht.
    rewrite !in_app_iff. destruct Ht as [Ht|Ht];
    pose proof (in_combine_l _ _ _ _ Ht); pose proof (in_combine_r _ _ _ _ Ht); tauto.
  - destruct H as [<-|[]]. apply P in Ht. destruct t as [c [u v]]. cbn [fst snd] in *. rewrite !in_app_iff in Ht.
    rewrite !in_app_iff. cbn [In] in *. destruct Ht as [Ht|[Ht|[Ht|[]]]].
    1,2: pose proof (in_combine_l _ _ _ _ Ht); pose proof (in_combine_r _ _ _ _ Ht); tauto.
    injection Ht as <- <-. tauto.
  - apply in_map_iff in H. destruct H as (k & <- & _). apply P in Ht. destruct t as [c [u v]]. cbn [fst snd] in *.
    rewrite in_app_iff in Ht. rewrite !in_app_iff. cbn [In] in *. destruct Ht as [Ht|[Ht|[]]].
    + pose proof (in_combine_l _ _ _ _ Ht) as Hu; pose proof (in_combine_r _ _ _ _ Ht). split; [|tauto].
      apply in_map_iff in Hu. destruct Hu as (xi & <- & Hxi).
      destruct (nth_in_or_default k xi dw) as [Hi|He]; [|now left].
      right. left. apply in_concat. eauto.
    + injection Ht as <- <-. split; [|tauto].
      destruct (nth_in_or_default k r dw) as [Hi|He]; [|now left]. tauto.
Qed.
Lemma prv_fold l : forall A, Forall (fun t : bool * (sw * sw) => honest_wire (fst (snd t)) /\ honest_wire (snd (snd t))) l ->
  fold_left prv_deg2_term (map (tmap fst) l) A = fold_left sh_term l A.
Proof.
  induction l as [|[c [x y]] l IH]; intros A H; [reflexivity|]. inversion H as [|? ? [Hx Hy] Hl]; subst.
  cbn [map fold_left]. rewrite IH by easy. f_equal. cbn [tmap prv_deg2_term sh_term fst snd] in *.
  unfold getLSB. unfold honest_wire in *. now rewrite Hx, Hy.
Qed.
Lemma sh_items_prv c : Forall honest_wire (wires_of c) -> prv_items (bcall_map fst c) = map fst (sh_items c).
Proof.
  intro H. rewrite prv_items_terms, (item_terms_map _ (0%N, false)) by reflexivity.
  unfold sh_items. rewrite !map_map. apply map_ext_in. intros it Hit. cbn [snd sh_item fst].
  apply prv_fold. apply Forall_forall. intros t Ht. rewrite Forall_forall in H.
  destruct (in_item_terms _ _ _ _ Hit Ht) as [[->|Hx] [->|Hy]]; split; auto; reflexivity.
Qed.
