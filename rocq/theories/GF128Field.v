(** Block multiplication has no zero divisors: GF(2)[x]/(x^128+x^7+x^2+x+1) is a
    field.  Proof: (1) a^(2^128) = a for every a, because squaring is additive and
    the 128-fold square of x is x (computed); (2) the only idempotents are 0 and 1,
    because squaring-plus-identity has a one-dimensional kernel (checked with an
    explicit left inverse on the 128 basis elements); (3) a^(2^128-1) is an
    idempotent e with a*e = a, so it is 1 unless a = 0. *)
From Coq Require Import NArith Lia List Bool Ring Ring_theory Eqdep_dec ZifyBool ZifyNat ZifyN.
From Verif Require Import Word WordProofs GF128 GF128Ring PolyRoots.
Import ListNotations.
Local Open Scope N_scope.

(** * Frobenius *)
Definition sq (a : N) : N := gfmul a a.
Lemma sq_lxor a b : sq (N.lxor a b) = N.lxor (sq a) (sq b).
Proof.
  unfold sq. rewrite gfmul_lxor_l, !gfmul_lxor_r, (gfmul_comm b a).
  rewrite N.lxor_assoc. f_equal. now rewrite lxor_cancel.
Qed.
Lemma sq_mul a b : sq (gfmul a b) = gfmul (sq a) (sq b).
Proof.
  unfold sq. rewrite !gfmul_assoc. f_equal. rewrite <- !gfmul_assoc. f_equal. apply gfmul_comm.
Qed.
Fixpoint frob (k : nat) (a : N) : N := match k with O => a | S k' => frob k' (sq a) end.
Lemma frob_lxor k : forall a b, frob k (N.lxor a b) = N.lxor (frob k a) (frob k b).
Proof. induction k; intros; cbn; auto. now rewrite sq_lxor, IHk. Qed.
Lemma frob_mul k : forall a b, frob k (gfmul a b) = gfmul (frob k a) (frob k b).
Proof. induction k; intros; cbn; auto. now rewrite sq_mul, IHk. Qed.
Lemma xtime_gfmul v : v < 2 ^ 128 -> xtime v = gfmul 2 v.
Proof.
  intros H. unfold gfmul. change (clmul 2 v) with (N.double v).
  rewrite reduce_double. now rewrite reduce_small.
Qed.
Lemma frob128_x : frob 128 2 = 2. Proof. vm_compute. reflexivity. Qed.
Lemma frob128_1 : frob 128 1 = 1. Proof. vm_compute. reflexivity. Qed.
Lemma frob128_reduce a : frob 128 (reduce a) = reduce a.
Proof.
  induction a using N_bin_ind.
  - vm_compute. reflexivity.
  - rewrite reduce_double, xtime_gfmul, frob_mul, IHa, frob128_x by apply reduce_lt. reflexivity.
  - rewrite reduce_sd, frob_lxor, frob128_1, xtime_gfmul, frob_mul, IHa, frob128_x by apply reduce_lt.
    reflexivity.
Qed.
Lemma frob128 a : a < 2 ^ 128 -> frob 128 a = a.
Proof. intros. rewrite <- (reduce_small a) by assumption. apply frob128_reduce. Qed.

(** * Idempotents are trivial (Berlekamp) *)
Definition berl_cols : list N :=
 [54969562866131847669016652494142573320;
  305526867633558886955404559995676324868;
  305526867633558886955404559995676324870;
  104469799312523126935073530960423461388;
  305526867633558886955404559995676324866;
  56734434906695435454005472259553578602;
  104469799312523126935073530960423461380;
  271830150077582418345900040240152313368;
  305526867633558886955404559995676324882;
  104470118804432205535668098632526617412;
  56734434906695435454005472259553578570;
  227145695117876428321601179286510436182;
  104469799312523126935073530960423461444;
  305967500991204419130524647600360013666;
  271830150077582418345900040240152313496;
  227728627380917811012951187023350445606;
  305526867633558886955404559995676325138;
  56815181714465587187729576693626853178;
  104470118804432205535668098632526616900;
  2537993204061707162883588357039153916;
  56734434906695435454005472259553577546;
  3012428575888700110705650160495551628;
  227145695117876428321601179286510434134;
  275671395948664093117384310641479295528;
  104469799312523126935073530960423465540;
  271915852323952067842399232303023203416;
  305967500991204419130524647600360005474;
  102998777379450204286412735627287799860;
  271830150077582418345900040240152297112;
  272209106874770544727132909282711537316;
  227728627380917811012951187023350412838;
  135325830696997074197434372310186257282;
  305526867633558886955404559995676390674;
  57232084741685004684866676497372669754;
  56815181714465587187729576693626984250;
  135411474552265958872087683058005180738;
  104470118804432205535668098632526879044;
  275757512462385460142162890854388625828;
  2537993204061707162883588357039678204;
  274842411402277094064293402576501149528;
  56734434906695435454005472259554626122;
  175382474467339210118195525752143821788;
  3012428575888700110705650160497648780;
  5261797816253387317062014170447638976;
  227145695117876428321601179286514628438;
  272210066766835802062006483639670336468;
  275671395948664093117384310641470906920;
  225136856268418471551472419225175749014;
  104469799312523126935073530960440242756;
  102164174349821125137969924442995585924;
  271915852323952067842399232302989648984;
  226936647763116174786496543602468507498;
  305967500991204419130524647600427114338;
  305532029585887981283514747020026657774;
  102998777379450204286412735627422017588;
  133211003395652039953403666705387164366;
  271830150077582418345900040239883861656;
  102148097239065330920971689869502701364;
  272209106874770544727132909283248408228;
  173139448164521758332819425568250980204;
  227728627380917811012951187022276671014;
  305961988162602755697098987302884752222;
  135325830696997074197434372312333740930;
  175397880387343143921058595535091746080;
  305526867633558886955404559991381423378;
  329634352286836299080082914081100;
  57232084741685004684866676505962604346;
  172705286512742171128536335012890908524;
  56815181714465587187729576710806853434;
  303614986222712004812458293485509624930;
  135411474552265958872087683023645442370;
  170536380025231687221712635462198253856;
  104470118804432205535668098701246355780;
  225051247907070202050589524227723711914;
  275757512462385460142162890991827579300;
  308170559265311564786252692292247708062;
  2537993204061707162883588082161771260;
  102169133813289299704984590013427707636;
  274842411402277094064293402026745335640;
  303326766809063102477989677003176958226;
  56734434906695435454005473359066253898;
  172841837191359616877872241477191677152;
  175382474467339210118195523553120566236;
  54888141419452711199816878900948880442;
  3012428575888700110705654558544159884;
  307799342647640341558117533281787318686;
  5261797816253387317062022966540661184;
  273119276677551945356669168913118222868;
  227145695117876428321601196878700672854;
  272311600527812781647585363233504111460;
  272210066766835802062006518824042425300;
  5181299727675599870287693023180209980;
  275671395948664093117384240272726729256;
  305525142620375929691910208574098026146;
  225136856268418471551472278487687393686;
  307772801086609188417528170053220769746;
  104469799312523126935073249485463532100;
  54596111748351997025280216654447342278;
  102164174349821125137970487392949007236;
  308164931596625094656266467235253809106;
  271915852323952067842398106403082806360;
  227647953955287367714133036452945544742;
  226936647763116174786494291802654822250;
  308170555145571807541189819739699809694;
  305967500991204419130520144000799743842;
  133105130754254600986622393405343152142;
  305532029585887981283523754219281398766;
  172410759080424577518324870893406614048;
  102998777379450204286394721228912535604;
  54969320214588899006126198736319185926;
  133211003395652039953439695502406128334;
  227375442280390979429973553919662004774;
  271830150077582418345827982645845933720;
  4955917326648230773508684280683823104;
  102148097239065330921115805057578557236;
  172885700256406002458384310923462859152;
  272209106874770544726844678907096696484;
  56538291399058816093646072645906817530;
  173139448164521758332242964815947556716;
  55418003596362017635628740176384579466;
  227728627380917811014104108526883517990;
  0;
  305961988162602755699404830312098446174;
  178356100567250831900639352525185366892;
  135325830696997074202046058330761128834;
  189481146061086134017106552491789565356;
  175397880387343143911835223498236970272;
  75361565302940573017734093940626417402].
(** linear map with the given images of 1, x, x^2, ... *)
Fixpoint lin (cols : list N) (v : N) : N :=
  match cols with
  | [] => 0
  | c :: cols' => N.lxor (if N.odd v then c else 0) (lin cols' (N.div2 v))
  end.
Lemma lin_lxor cols : forall u v, lin cols (N.lxor u v) = N.lxor (lin cols u) (lin cols v).
Proof.
  induction cols as [|c cols IH]; intros u v; [reflexivity|]. cbn [lin].
  rewrite <- !N.bit0_odd, N.lxor_spec.
  replace (N.div2 (N.lxor u v)) with (N.lxor (N.div2 u) (N.div2 v)).
  2:{ now rewrite !N.div2_spec, N.shiftr_lxor. }
  rewrite IH, lxor_swap. f_equal.
  destruct (N.testbit u 0), (N.testbit v 0); cbn [xorb]; rewrite ?N.lxor_nilpotent, ?N.lxor_0_r, ?N.lxor_0_l; auto.
Qed.
Definition berl (e : N) : N := lin berl_cols (N.lxor (sq e) e).
Definition clear0 (e : N) : N := N.double (N.div2 e).
Lemma berl_lxor a b : berl (N.lxor a b) = N.lxor (berl a) (berl b).
Proof. unfold berl. rewrite sq_lxor, lxor_swap. apply lin_lxor. Qed.
Lemma clear0_lxor a b : clear0 (N.lxor a b) = N.lxor (clear0 a) (clear0 b).
Proof.
  unfold clear0. rewrite lxor_double. f_equal.
  now rewrite !N.div2_spec, N.shiftr_lxor.
Qed.
Lemma berl_basis : forallb (fun i => berl (2 ^ N.of_nat i) =? clear0 (2 ^ N.of_nat i)) (seq 0 128) = true.
Proof. vm_compute. reflexivity. Qed.
(** a block is the xor of the powers of two at its set bits *)
Fixpoint bitsum (n : nat) (a : N) : N :=
  match n with
  | O => 0
  | S n' => N.lxor (bitsum n' a) (if N.testbit a (N.of_nat n') then 2 ^ N.of_nat n' else 0)
  end.
Lemma bitsum_testbit n a i : N.testbit (bitsum n a) i = (i <? N.of_nat n) && N.testbit a i.
Proof.
  induction n as [|n IH]; cbn [bitsum].
  - rewrite N.bits_0. change (N.of_nat 0) with 0. destruct i; reflexivity.
  - rewrite N.lxor_spec, IH.
    destruct (N.eq_dec i (N.of_nat n)) as [->|Hn].
    + replace (N.of_nat n <? N.of_nat n) with false by lia.
      replace (N.of_nat n <? N.of_nat (S n)) with true by lia.
      destruct (N.testbit a (N.of_nat n)).
      * now rewrite N.pow2_bits_true.
      * now rewrite N.bits_0.
    + replace (N.testbit (if N.testbit a (N.of_nat n) then 2 ^ N.of_nat n else 0) i) with false.
      2:{ destruct (N.testbit a (N.of_nat n)); rewrite ?N.bits_0; auto.
          symmetry. apply N.pow2_bits_false. lia. }
      rewrite xorb_false_r. f_equal. lia.
Qed.
Lemma bitsum_all a n : a < 2 ^ N.of_nat n -> bitsum n a = a.
Proof.
  intros H. apply N.bits_inj. intro i. rewrite bitsum_testbit.
  destruct (i <? N.of_nat n) eqn:E; auto. symmetry. cbn.
  apply (testbit_high a (N.of_nat n)); auto. lia.
Qed.
Lemma linear_ext (f g : N -> N) :
  (forall a b, f (N.lxor a b) = N.lxor (f a) (f b)) ->
  (forall a b, g (N.lxor a b) = N.lxor (g a) (g b)) ->
  forallb (fun i => f (2 ^ N.of_nat i) =? g (2 ^ N.of_nat i)) (seq 0 128) = true ->
  forall a, a < 2 ^ 128 -> f a = g a.
Proof.
  intros Hf Hg Hb a Ha.
  assert (f 0 = 0) as F0 by (rewrite <- (N.lxor_nilpotent 0), Hf; apply N.lxor_nilpotent).
  assert (g 0 = 0) as G0 by (rewrite <- (N.lxor_nilpotent 0), Hg; apply N.lxor_nilpotent).
  rewrite <- (bitsum_all a 128) by exact Ha.
  rewrite forallb_forall in Hb.
  assert (forall n, (n <= 128)%nat -> f (bitsum n a) = g (bitsum n a)) as X; [|apply X; lia].
  induction n as [|n IH]; intros Hn; cbn [bitsum]; [congruence|].
  rewrite Hf, Hg, IH by lia. f_equal.
  destruct (N.testbit a (N.of_nat n)); [|congruence].
  apply N.eqb_eq. apply Hb. apply in_seq. lia.
Qed.
Lemma idempotent_trivial e : e < 2 ^ 128 -> gfmul e e = e -> e = 0 \/ e = 1.
Proof.
  intros He Hi.
  assert (H : berl e = clear0 e).
  { apply (linear_ext berl clear0); auto using berl_lxor, clear0_lxor, berl_basis. }
  unfold berl, sq in H. rewrite Hi, N.lxor_nilpotent in H.
  assert (lin berl_cols 0 = 0) as L0
    by (rewrite <- (N.lxor_nilpotent 0), lin_lxor; apply N.lxor_nilpotent).
  rewrite L0 in H. unfold clear0 in H.
  destruct e as [|[p|p|]]; auto; discriminate.
Qed.

(** * Inverses *)
(** a^(2^k - 1) computed alongside a^(2^k) *)
Fixpoint pow_ones (k : nat) (a : N) : N :=   (* a^(2^k-1), k >= 1 uses a block *)
  match k with O => 1 | S k' => gfmul a (sq (pow_ones k' a)) end.
Fixpoint sqs (k : nat) (a : N) : N := match k with O => a | S k' => sq (sqs k' a) end.
Lemma sqs_sq k a : sqs k (sq a) = sq (sqs k a).
Proof. induction k; cbn; congruence. Qed.
Lemma frob_sqs k : forall a, frob k a = sqs k a.
Proof. induction k; intros a; cbn; auto. now rewrite IHk, sqs_sq. Qed.
Lemma pow_ones_mul k a : a < 2 ^ 128 -> gfmul a (pow_ones k a) = sqs k a.
Proof.
  intros Ha. induction k; cbn [pow_ones sqs].
  - now apply gfmul_1_r.
  - rewrite <- gfmul_assoc. fold (sq a). rewrite <- sq_mul. now rewrite IHk.
Qed.
Definition gfinv (a : N) : N := sq (pow_ones 127 a).
Theorem gfinv_r a : a < 2 ^ 128 -> a <> 0 -> gfmul a (gfinv a) = 1.
Proof.
  intros Ha Hn. change (gfmul a (gfinv a)) with (pow_ones 128 a).
  set (e := pow_ones 128 a).
  assert (gfmul a e = a) as Hae.
  { unfold e. rewrite pow_ones_mul by assumption. rewrite <- frob_sqs. now apply frob128. }
  assert (e < 2 ^ 128) as He by apply gfmul_lt.
  assert (gfmul e e = e) as Hee.
  { unfold e at 1. change (pow_ones 128 a) with (gfmul a (gfinv a)).
    rewrite (gfmul_comm a), gfmul_assoc, Hae, gfmul_comm. reflexivity. }
  destruct (idempotent_trivial e He Hee) as [E|E]; auto.
  exfalso. apply Hn. rewrite <- Hae, E. apply gfmul_0_r.
Qed.
Theorem gfmul_nzd a b : a < 2 ^ 128 -> b < 2 ^ 128 -> gfmul a b = 0 -> a = 0 \/ b = 0.
Proof.
  intros Ha Hb H. destruct (N.eq_dec a 0); auto. right.
  rewrite <- (gfmul_1_l b) by assumption.
  rewrite <- (gfinv_r a), (gfmul_comm a), gfmul_assoc, H by assumption. apply gfmul_0_r.
Qed.

(** * The field as a type, for the [ring] tactic and root counting *)
Definition GF : Type := { x : N | (x <? W128) = true }.
Definition gv (a : GF) : N := proj1_sig a.
Lemma gv_lt a : gv a < 2 ^ 128.
Proof. destruct a as [x H]. cbn. apply N.ltb_lt in H. exact H. Qed.
Lemma gv_inj a b : gv a = gv b -> a = b.
Proof.
  destruct a as [x H], b as [y H']. cbn. intros ->. f_equal. apply UIP_dec. apply bool_dec.
Qed.
Lemma reduce_ltb a : (reduce a <? W128) = true.
Proof. apply N.ltb_lt. apply reduce_lt. Qed.
Definition toG (a : N) : GF := exist _ (reduce a) (reduce_ltb a).
Definition g0 : GF := toG 0.
Definition g1 : GF := toG 1.
Definition gadd (a b : GF) : GF := toG (N.lxor (gv a) (gv b)).
Definition gmul (a b : GF) : GF := toG (gfmul (gv a) (gv b)).
Definition gopp (a : GF) : GF := a.
Lemma gv_toG a : gv (toG a) = reduce a. Proof. reflexivity. Qed.
Lemma gv_toG_small a : a < 2 ^ 128 -> gv (toG a) = a. Proof. apply reduce_small. Qed.
Lemma toG_gv a : toG (gv a) = a.
Proof. apply gv_inj. rewrite gv_toG. apply reduce_small, gv_lt. Qed.
Lemma toG_inj a b : a < 2 ^ 128 -> b < 2 ^ 128 -> toG a = toG b -> a = b.
Proof. intros Ha Hb E. rewrite <- (gv_toG_small a), <- (gv_toG_small b) by assumption. now rewrite E. Qed.
Lemma toG_lxor a b : toG (N.lxor a b) = gadd (toG a) (toG b).
Proof.
  apply gv_inj. unfold gadd. rewrite !gv_toG, !reduce_lxor, !reduce_idem. reflexivity.
Qed.
Lemma toG_gfmul a b : toG (gfmul a b) = gmul (toG a) (toG b).
Proof.
  apply gv_inj. unfold gmul. rewrite !gv_toG.
  unfold gfmul. now rewrite !reduce_idem, reduce_clmul_l, reduce_clmul_r.
Qed.
Lemma toG_0 : toG 0 = g0. Proof. reflexivity. Qed.
Lemma toG_1 : toG 1 = g1. Proof. reflexivity. Qed.
Lemma gv_gadd a b : gv (gadd a b) = N.lxor (gv a) (gv b).
Proof. unfold gadd. rewrite gv_toG. apply reduce_small, lxor_lt; apply gv_lt. Qed.
Lemma gv_gmul a b : gv (gmul a b) = gfmul (gv a) (gv b).
Proof. unfold gmul. rewrite gv_toG. apply reduce_idem. Qed.

Lemma GF_rt : ring_theory g0 g1 gadd gmul gadd gopp eq.
Proof.
  constructor; intros; apply gv_inj; rewrite ?gv_gadd, ?gv_gmul, ?gv_gadd, ?gv_gmul; unfold gopp.
  - apply N.lxor_0_l.
  - apply N.lxor_comm.
  - now rewrite N.lxor_assoc.
  - apply gfmul_1_l, gv_lt.
  - apply gfmul_comm.
  - now rewrite gfmul_assoc.
  - apply gfmul_lxor_l.
  - reflexivity.
  - apply N.lxor_nilpotent.
Qed.
(** coefficients in bool, so that the [ring] tactic knows 1+1 = 0 *)
Definition gbool (b : bool) : GF := if b then g1 else g0.
Lemma GF_morph : ring_morph g0 g1 gadd gmul gadd gopp eq
                            false true xorb andb xorb (fun b => b) Bool.eqb gbool.
Proof.
  constructor; try reflexivity.
  - intros [] []; apply gv_inj; reflexivity.
  - intros [] []; apply gv_inj; reflexivity.
  - intros [] []; apply gv_inj; vm_compute; reflexivity.
  - intros [] []; cbn; try reflexivity; discriminate.
Qed.
Ltac GFcst t :=
  match t with
  | g0 => constr:(false)
  | g1 => constr:(true)
  | _ => constr:(InitialRing.NotConstant)
  end.
Add Ring GFring : GF_rt (morphism GF_morph, constants [GFcst]).
Lemma GF_char2 (a b : GF) : gadd (gadd a b) b = a. Proof. ring. Qed.

Lemma GF_eq_dec (a b : GF) : {a = b} + {a <> b}.
Proof.
  destruct (N.eq_dec (gv a) (gv b)) as [E|E].
  - left. now apply gv_inj. - right. congruence.
Qed.
Lemma GF_nzd a b : gmul a b = g0 -> a = g0 \/ b = g0.
Proof.
  intros H. assert (gfmul (gv a) (gv b) = 0) as E by (rewrite <- gv_gmul, H; reflexivity).
  apply gfmul_nzd in E; auto using gv_lt.
  destruct E; [left|right]; apply gv_inj; assumption.
Qed.
Definition GF_quad := quad_roots GF g0 g1 gadd gmul gadd gopp GF_rt GF_nzd.
Definition GF_lin := lin_roots GF g0 g1 gadd gmul gadd gopp GF_rt GF_nzd.
Definition GF_root_count := root_count GF g0 g1 gadd gmul gadd gopp GF_rt GF_nzd.
Definition GF_pow_roots := pow_sum_roots GF g0 g1 gadd gmul gadd gopp GF_rt GF_nzd.
