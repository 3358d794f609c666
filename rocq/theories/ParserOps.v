(** The parser reads every written expression (Written.v): operands, lists and
    lambda expressions, and the induction over all texts. *)
From Verif Require Import Core CoreFacts Str StrFacts DecSpec Peg PegFacts Grammar Eval Parser ParserFacts ParserRead Written ParserWords ParserClean ParserLits ParserWritten ParserAll.
From Coq Require Import SpecFloat Lia PeanoNat.
Import ListNotations.

Section W.
Variable parseFloat : string -> option spec_float.
Variable path stubPath : list string.
Notation go := (go parseFloat path stubPath).
Notation chain := (PStar (PRule R_ChainedQualifiedExpression)).
Notation lit1 := (go_lit1 parseFloat path stubPath).
Notation gows := (go_ws parseFloat path stubPath).
Notation goreq := (go_req parseFloat path stubPath).
Notation opened := (opened parseFloat path stubPath).
Notation closed := (closed parseFloat path stubPath).
Notation PW := (PW parseFloat path stubPath).
Notation noscope_hd := (noscope_hd parseFloat path stubPath).
Notation front_hd := (front_hd parseFloat path stubPath).
Notation front_word := (front_word parseFloat path stubPath).
Notation closing_bars := (closing_bars parseFloat path stubPath).
Notation step_fails := (step_fails parseFloat path stubPath).
Notation closing_step := (closing_step parseFloat path stubPath).
Notation startOK_ops := (startOK_ops parseFloat path stubPath).
Notation closing_stops := (closing_stops parseFloat path stubPath).
Notation closed_read := (closed_read parseFloat path stubPath).
Notation read8 := (read8 parseFloat path stubPath).
Ltac rd L := exact (go_reads parseFloat path stubPath _ _ _ _ L).
Ltac quiet := eapply go_rule0; [|intros ?; match goal with |- _ _ _ ?s = _ => now destruct s end]; cbn [grammar].
Ltac apps := rewrite <- ?app_assoc; cbn [app]; rewrite <- ?app_assoc; cbn [app]; rewrite <- ?app_assoc; cbn [app]; rewrite <- ?app_assoc; cbn [app]; rewrite <- ?app_assoc; reflexivity.

(** ** lambda expressions *)
Definition PL (e : expr) (t : text) : Prop :=
  (exists r, t = "|"%char :: r) /\ (forall u, closing (t ++ u)) /\
  forall g0 g s1 st, gap g0 -> gap g -> closing s1 -> stop0 (g ++ s1) ->
    go (PRule R_LambdaExpr) (g0 ++ t ++ g ++ s1) s1 st (push e st).
Lemma body_read e t g2 g3 g s1 st : PW true 8 e t -> gap g2 -> gap g3 -> gap g -> closing s1 -> stop0 (g ++ s1) ->
  go (PRule R_Expression) (g2 ++ t ++ g3 ++ g ++ s1) s1 st (push e st).
Proof.
  intros P G2 G3 G K S. replace (g3 ++ g ++ s1) with ((g3 ++ g) ++ s1) by (now rewrite app_assoc).
  apply read8; trivial; [now apply gap_app|]. rewrite <- app_assoc. now apply stop0_gap.
Qed.
Lemma go_NextName g n g' s st l va : gap g -> name n -> gap g' -> nb s -> hd_is isWord s = false ->
  go (PRule R_NextName) (g ++ n ++ g' ++ s) s (pushI (INames l va) st) (pushI (INames (l ++ [(ofchars n, None)]) va) st).
Proof.
  intros G N G' B W. eapply go_rule; [cbn [grammar]|].
  - eapply go_seq; [apply gows; [assumption|]|].
    { destruct N as [E F]. destruct F as [|c n C F]; [contradiction|]. unfold nb. cbn. now destruct c as [[] [] [] [] [] [] [] []]. }
    eapply go_seq; [apply go_Name; [assumption|]|apply gows; assumption].
    apply gap_hd; trivial. intros c Hc. now apply blank_word.
  - reflexivity.
Qed.
Lemma params_app a b : params (a ++ b) = params a ++ params b.
Proof. apply map_app. Qed.
Lemma names_read l u : names l u -> exists g0 u', u = g0 ++ u' /\ gap g0 /\ nb u' /\ u' <> [] /\ hd_is (fun c => Ascii.eqb c "|") u' = false /\
  forall g r st acc, gap g -> exists mid st1,
    go (PRule R_NextName) (g ++ u' ++ "|"%char :: r) mid (pushI (INames acc false) st) st1 /\
    go (PStar ((PLit ",") ~> @@R_NextName)) mid ("|"%char :: r) st1 (pushI (INames (acc ++ params l) false) st).
Proof.
  assert (NH : forall n x, name n -> nb (n ++ x) /\ n ++ x <> [] /\ hd_is (fun c => Ascii.eqb c "|") (n ++ x) = false).
  { intros n x [E F]. destruct F as [|c n C F]; [contradiction|]. unfold nb. cbn.
    repeat split; try discriminate; now destruct c as [[] [] [] [] [] [] [] []]. }
  induction 1 as [g n g' G N G'|g n g' l t G N G' H IH].
  - destruct (NH n g' N) as [A [B C]]. exists g, (n ++ g'). conjs; trivial. intros h r st acc Hh.
    exists ("|"%char :: r), (pushI (INames (acc ++ [(ofchars n, None)]) false) st). split.
    + rewrite <- app_assoc. now apply go_NextName.
    + apply go_star_nil. apply fails_seq_l. dead.
  - destruct (NH n (g' ++ ","%char :: t) N) as [A [B C]]. exists g, (n ++ g' ++ ","%char :: t). conjs; trivial.
    intros h r st acc Hh. destruct IH as [g1 [u' [-> [G1 [Nb [Ne [_ IH]]]]]]].
    destruct (IH g1 r st (acc ++ [(ofchars n, None)]) G1) as [mid [st1 [R1 R2]]].
    exists (","%char :: g1 ++ u' ++ "|"%char :: r), (pushI (INames (acc ++ [(ofchars n, None)]) false) st). split.
    + replace ((n ++ g' ++ ","%char :: g1 ++ u') ++ "|"%char :: r) with (n ++ g' ++ (","%char :: g1 ++ u' ++ "|"%char :: r)) by apps.
      now apply go_NextName.
    + replace (acc ++ params (ofchars n :: l)) with ((acc ++ [(ofchars n, None)]) ++ params l) by (now rewrite <- app_assoc).
      eapply go_star_cons; [eapply go_seq; [apply lit1|exact R1]|exact R2].
Qed.
Lemma go_Params0 g s st : gap g -> go (PRule R_Params) ("|"%char :: g ++ "|"%char :: s) s st (pushI (INames [] false) st).
Proof.
  intros G. quiet. eapply go_seq; [apply lit1|]. eapply go_seq; [eapply go_rule; [apply go_eps|reflexivity]|].
  eapply go_seq; [apply gows; [assumption|reflexivity]|]. eapply go_seq; [apply go_opt_none; dead|apply lit1].
Qed.
Lemma go_Params l u s st : names l u -> go (PRule R_Params) ("|"%char :: u ++ "|"%char :: s) s st (pushI (INames (params l) false) st).
Proof.
  intros N. destruct (names_read _ _ N) as [g0 [u' [-> [G0 [Nb [Ne [_ R]]]]]]].
  destruct (R [] s st [] ltac:(constructor)) as [mid [st1 [R1 R2]]].
  quiet. eapply go_seq; [apply lit1|]. eapply go_seq; [eapply go_rule; [apply go_eps|reflexivity]|].
  rewrite <- app_assoc. eapply go_seq; [apply gows; [assumption|]|].
  { unfold nb in *. now destruct u'. }
  eapply go_seq; [apply go_opt_some|apply lit1]. quiet. cbn [app] in R1.
  eapply go_seq; [exact R1|]. eapply go_seq; [exact R2|]. eapply go_seq; [apply go_opt_none; dead|].
  eapply go_seq; [apply go_star_nil; dead|]. apply go_opt_none. dead.
Qed.
Lemma PL_of e t l bars g1 g2 g3 : bars <> [] -> (exists r, bars = "|"%char :: r) ->
  (forall s st, go (PRule R_Params) (bars ++ s) s st (pushI (INames l false) st)) ->
  (forall u, closing (bars ++ g1 ++ chars "->" ++ u)) ->
  gap g1 -> gap g2 -> PW true 8 e t -> gap g3 -> PL (ELambda l false e) (bars ++ g1 ++ chars "->" ++ g2 ++ t ++ g3).
Proof.
  intros NB [r E] B C G1 G2 P G3. split; [|split].
  - subst. cbn. eauto.
  - intros u. replace ((bars ++ g1 ++ chars "->" ++ g2 ++ t ++ g3) ++ u) with (bars ++ g1 ++ chars "->" ++ (g2 ++ t ++ g3 ++ u)) by apps.
    apply C.
  - intros g0 g s1 st G0 G K S.
    replace ((bars ++ g1 ++ chars "->" ++ g2 ++ t ++ g3) ++ g ++ s1) with (bars ++ (g1 ++ chars "->" ++ (g2 ++ t ++ g3 ++ g ++ s1))) by apps.
    eapply go_rule; [cbn [grammar]|].
    + eapply go_seq; [apply gows; [assumption|]|].
      { subst bars. reflexivity. }
      eapply go_seq; [apply B|]. eapply go_seq; [apply gows; [assumption|reflexivity]|].
      eapply go_seq; [apply (go_lit parseFloat path stubPath "->")|]. now apply (body_read e t).
    + reflexivity.
Qed.
Lemma PL_none g g1 g2 e t g3 : gap g -> gap g1 -> gap g2 -> PW true 8 e t -> gap g3 ->
  PL (ELambda [] false e) ("|"%char :: g ++ "|"%char :: g1 ++ chars "->" ++ g2 ++ t ++ g3).
Proof.
  intros G G1 G2 P G3.
  replace ("|"%char :: g ++ "|"%char :: g1 ++ chars "->" ++ g2 ++ t ++ g3) with (("|"%char :: g ++ ["|"%char]) ++ g1 ++ chars "->" ++ g2 ++ t ++ g3) by apps.
  apply PL_of; trivial; try discriminate; [eauto| |].
  - intros s st. replace (("|"%char :: g ++ ["|"%char]) ++ s) with ("|"%char :: g ++ "|"%char :: s) by apps. now apply go_Params0.
  - intros u. replace (("|"%char :: g ++ ["|"%char]) ++ g1 ++ chars "->" ++ u) with ("|"%char :: g ++ "|"%char :: g1 ++ chars "->" ++ u) by apps.
    destruct G as [|c g B G]; [now apply closing_bars|]. apply closing_bar. intros ->. apply blankb_spec in B. discriminate.
Qed.
Lemma PL_some l w g1 g2 e t g3 : names l w -> gap g1 -> gap g2 -> PW true 8 e t -> gap g3 ->
  PL (ELambda (params l) false e) ("|"%char :: w ++ "|"%char :: g1 ++ chars "->" ++ g2 ++ t ++ g3).
Proof.
  intros N G1 G2 P G3.
  replace ("|"%char :: w ++ "|"%char :: g1 ++ chars "->" ++ g2 ++ t ++ g3) with (("|"%char :: w ++ ["|"%char]) ++ g1 ++ chars "->" ++ g2 ++ t ++ g3) by apps.
  apply PL_of; trivial; try discriminate; [eauto| |].
  - intros s st. replace (("|"%char :: w ++ ["|"%char]) ++ s) with ("|"%char :: w ++ "|"%char :: s) by apps. now apply go_Params.
  - intros u. replace (("|"%char :: w ++ ["|"%char]) ++ g1 ++ chars "->" ++ u) with ("|"%char :: w ++ "|"%char :: g1 ++ chars "->" ++ u) by apps.
    destruct (names_read _ _ N) as [g0 [u' [-> [G0 [Nb [Ne [Nbar _]]]]]]].
    destruct G0 as [|c g0 B G0]; cbn [app].
    + destruct u' as [|c u']; [contradiction|]. apply closing_bar. intros ->. discriminate.
    + apply closing_bar. intros ->. apply blankb_spec in B. discriminate.
Qed.
Lemma front8_bar t : front8 ("|"%char :: t).
Proof. split; [reflexivity|apply nopref_hd; discriminate|apply noname_hd; [reflexivity|reflexivity|discriminate]]. Qed.
Lemma PW_lambda e t : PL e t -> PW true 8 e t.
Proof.
  intros [[r ->] [K L]]. split; [apply front8_bar|]. split; [lia|].
  intros g0 g s1 [G0 _] G C S. exists s1. split; [now left|]. intros st. cbn [lv]. quiet.
  eapply go_seq; [apply go_alt_r; [|apply go_alt_l; now apply L]|].
  - apply (noscope_hd ("|"%char :: r)); trivial; reflexivity.
  - apply (gows [] s1); [constructor|apply C].
Qed.
Lemma PW_lambda0 g e t : gap g -> PL e t -> (exists l va b, e = ELambda l va b) -> PW true 0 e (chars "lambda" ++ g ++ t).
Proof.
  intros G P [l [va [b E]]]. pose proof (PW_lambda e t P) as P8. destruct P as [[r Er] [K L]].
  assert (F : front (chars "lambda" ++ g ++ t)).
  { apply (front_word "l" ["a"; "m"; "b"; "d"; "a"]%char (g ++ t)); [reflexivity|discriminate|repeat constructor|].
    intros s _. subst t. rewrite <- app_assoc. apply fol_gap; [assumption|reflexivity|left; reflexivity|reflexivity]. }
  split; [apply F|]. split; [trivial|].
  intros g0 h s1 [_ Z] H C S. rewrite Z by lia. exists s1. split; [now left|]. intros st. cbn [lv].
  replace ([] ++ (chars "lambda" ++ g ++ t) ++ h ++ s1) with (chars "lambda" ++ g ++ t ++ h ++ s1) by apps.
  quiet. do 11 (apply go_alt_r; [dead|]). apply go_alt_l. quiet. eapply go_seq; [apply go_lit|].
  destruct (gap_split g G) as [->|Sp].
  - cbn [app]. apply go_alt_r; [|now apply (L [])]. subst t. apply fails_rule, fails_seq_l, fails_req. reflexivity.
  - apply go_alt_l. eapply go_rule; [cbn [grammar]|].
    + eapply go_seq; [apply goreq; [assumption|subst t; reflexivity]|]. apply (read8 e t P8 [] h); trivial; constructor.
    + subst e. reflexivity.
Qed.

(** a reference or another expression behind the word lambda *)
Lemma PW_lambdaref g e t : space g -> PW true 8 e t -> (forall l va b, e <> ELambda l va b) ->
  PW true 0 (ELambdaRef e path stubPath) (chars "lambda" ++ g ++ t).
Proof.
  intros G P N. pose proof P as [[O Np Nn] _].
  assert (F : front (chars "lambda" ++ g ++ t)).
  { apply (front_word "l" ["a"; "m"; "b"; "d"; "a"]%char (g ++ t)); [reflexivity|discriminate|repeat constructor|].
    intros s _. rewrite <- app_assoc. apply fol_gap; [apply G|now apply okhd_nb, hd_app|right; apply G|].
    destruct t as [|c t]; [discriminate|]. cbn in O |- *. destruct (Ascii.eqb_spec c "="); [subst; discriminate|reflexivity]. }
  split; [apply F|]. split; [trivial|].
  intros g0 h s1 [_ Z] H C S. rewrite Z by lia. exists s1. split; [now left|]. intros st. cbn [lv].
  replace ([] ++ (chars "lambda" ++ g ++ t) ++ h ++ s1) with (chars "lambda" ++ g ++ t ++ h ++ s1) by apps.
  quiet. do 11 (apply go_alt_r; [dead|]). apply go_alt_l. quiet. eapply go_seq; [apply go_lit|].
  apply go_alt_l. eapply go_rule; [cbn [grammar]|].
  - eapply go_seq; [apply goreq; [assumption|now apply okhd_nb, hd_app]|]. apply (read8 e t P [] h); trivial; constructor.
  - intros w _. destruct e; try reflexivity. exfalso. eapply N. reflexivity.
Qed.

(** ** lists of expressions *)
Definition ender (s : text) : Prop := exists c r, s = c :: r /\ In c [","; "]"; ")"]%char.
Lemma ender_closing s : ender s -> closing s /\ forall g, gap g -> stop0 (g ++ s).
Proof.
  intros [c [r [-> I]]]. split; [apply closing_hd; cbn in I |- *; tauto|].
  intros g G. apply stop0_gap; [assumption|]. intros _. heads; cbn; right; left; reflexivity.
Qed.
Definition PE (e : expr) (u : text) : Prop :=
  exists g u', u = g ++ u' /\ gap g /\ hd_is okhd u' = true /\ (forall s, ender s -> fails (PRule R_NextNameArgument) (u' ++ s)) /\
  forall g0 s st acc, gap g0 -> ender s ->
    go (PRule R_NextExpression) (g0 ++ u' ++ s) s (pushI (IList acc) st) (pushI (IList (acc ++ [e])) st).
(** no argument of the form name=... *)
Lemma noname_arg t s : hd_is okhd t = true -> noname t -> fol s -> fails (PRule R_NextNameArgument) (t ++ s).
Proof.
  intros O N F. destruct (N s F) as [w [v [E [W [Fv Ev]]]]].
  assert (B : nb (t ++ s)) by (apply okhd_nb, hd_app, O).
  apply fails_rule. cbn [grammar]. eapply fails_seq_r; [rd (gows [] (t ++ s) start ltac:(constructor) B)|].
  rewrite E. destruct w as [|c w].
  - cbn [app]. apply fails_seq_l, fails_rule, fails_plus. now apply (fails_set_hd _ isWord); [apply set_word|].
  - eapply fails_seq_r; [rd (go_Name parseFloat path stubPath (c :: w) v start ltac:(split; [discriminate|assumption]) Fv)|].
    assert (Sk : exists g, v = g ++ skipb v /\ gap g /\ nb (skipb v)).
    { clear. induction v as [|d v [g [E [G B]]]]; [exists []; repeat constructor|]. cbn. destruct (blankb d) eqn:D.
      - exists (d :: g). split; [cbn; now rewrite <- E|]. split; [constructor; [now apply blankb_spec|assumption]|assumption].
      - exists []. repeat split; [constructor|]. exact D. }
    destruct Sk as [g [Eg [G Bv]]]. rewrite Eg.
    set (v' := skipb v) in *. clearbody v'.
    eapply fails_seq_r; [rd (gows g v' start G Bv)|].
    destruct v' as [|d v']; [apply fails_seq_l; apply fails_lit1; reflexivity|].
    cbn in Ev. destruct (Ascii.eqb_spec d "=") as [->|D].
    + cbn in Ev. destruct v' as [|d v']; [discriminate|]. cbn in Ev. apply Ascii.eqb_eq in Ev. subst d.
      eapply fails_seq_r; [rd (lit1 "=" ("="%char :: v') start)|].
      eapply fails_seq_r; [rd (gows [] ("="%char :: v') start ltac:(constructor) eq_refl)|].
      apply fails_seq_l. dead.
    + apply fails_seq_l, fails_lit1. cbn. now destruct (Ascii.eqb_spec d "=").
Qed.
Lemma fol_ender g s : gap g -> ender s -> fol (g ++ s).
Proof. intros G [c [r [-> I]]]. heads; apply fol_gap; trivial; try reflexivity; left; reflexivity. Qed.
Lemma PE_plain g e t g' : gap g -> PW true 8 e t -> gap g' -> PE e (g ++ t ++ g').
Proof.
  intros G P G'. exists g, (t ++ g'). pose proof P as [[O Np Nn] _]. conjs; trivial.
  - now apply hd_app.
  - intros s E. rewrite <- app_assoc. apply noname_arg; trivial. now apply fol_ender.
  - intros g0 s st acc G0 E. rewrite <- app_assoc. destruct (ender_closing s E) as [K S].
    eapply go_rule; [cbn [grammar]; eapply go_seq; [apply (read8 e t P g0 g'); auto|]|].
    + apply go_opt_none. destruct E as [c [r [-> I]]]. heads; dead.
    + reflexivity.
Qed.
Lemma PE_expand g e t g' g'' : gap g -> PW true 8 e t -> gap g' -> gap g'' -> PE (EExpand e) (g ++ t ++ g' ++ chars "..." ++ g'').
Proof.
  intros G P G' G''. exists g, (t ++ g' ++ chars "..." ++ g''). pose proof P as [[O Np Nn] _]. conjs; trivial.
  - now apply hd_app.
  - intros s E. rewrite <- app_assoc. apply noname_arg; trivial. rewrite <- app_assoc.
    apply fol_gap; trivial; try reflexivity; left; reflexivity.
  - intros g0 s st acc G0 E.
    replace ((t ++ g' ++ chars "..." ++ g'') ++ s) with (t ++ g' ++ (chars "..." ++ g'' ++ s)) by apps.
    destruct (ender_closing s E) as [K S].
    eapply go_rule; [cbn [grammar]; eapply go_seq; [apply (read8 e t P g0 g'); trivial; [apply closing_dots|]|]|].
    + apply stop0_gap; [assumption|]. intros _. cbn. right; right; right. split; reflexivity.
    + apply go_opt_some. eapply go_rule; [cbn [grammar]; eapply go_seq; [apply (go_lit parseFloat path stubPath "...")|apply gows; [assumption|apply K]]|].
      reflexivity.
    + reflexivity.
Qed.
Definition PI (l : list expr) (u : text) : Prop :=
  exists g u', u = g ++ u' /\ gap g /\ hd_is okhd u' = true /\ (forall s, ender s -> fails (PRule R_NextNameArgument) (u' ++ s)) /\
  forall g0 c r st acc, gap g0 -> In c ["]"; ")"]%char -> exists mid st1,
    go (PRule R_NextExpression) (g0 ++ u' ++ c :: r) mid (pushI (IList acc) st) st1 /\
    go (PStar ((PLit ",") ~> @@R_NextExpression)) mid (c :: r) st1 (pushI (IList (acc ++ l)) st).
Lemma PI_one e u : PE e u -> PI [e] u.
Proof.
  intros [g [u' [-> [G [O [N R]]]]]]. exists g, u'. conjs; trivial.
  intros g0 c r st acc G0 I. exists (c :: r), (pushI (IList (acc ++ [e])) st). split.
  - apply R; trivial. exists c, r. split; [reflexivity|]. cbn in I |- *. tauto.
  - apply go_star_nil, fails_seq_l. heads; dead.
Qed.
Lemma PI_more e u l v : PE e u -> PI l v -> PI (e :: l) (u ++ ","%char :: v).
Proof.
  intros [g [u' [-> [G [O [N R]]]]]] [h [v' [-> [H [O' [_ R']]]]]]. exists g, (u' ++ ","%char :: h ++ v').
  assert (E : forall x, ender (","%char :: x)) by (intros x; exists ","%char, x; split; [reflexivity|now left]).
  conjs; trivial.
  - now rewrite <- app_assoc.
  - now apply hd_app.
  - intros s _. rewrite <- app_assoc. apply N. apply E.
  - intros g0 c r st acc G0 I. destruct (R' h c r st (acc ++ [e]) H I) as [mid [st1 [R1 R2]]].
    exists (","%char :: h ++ v' ++ c :: r), (pushI (IList (acc ++ [e])) st). split.
    + replace ((u' ++ ","%char :: h ++ v') ++ c :: r) with (u' ++ (","%char :: h ++ v' ++ c :: r)) by apps. now apply R.
    + replace (acc ++ e :: l) with ((acc ++ [e]) ++ l) by (now rewrite <- app_assoc).
      eapply go_star_cons; [eapply go_seq; [apply lit1|exact R1]|exact R2].
Qed.
(** [...] *)
Lemma go_list l u r st : PI l u ->
  go (@@R_StartList ~> @@R_ExpressionList ~> PLit "]") ("["%char :: u ++ "]"%char :: r) r st (pushI (IList l) st).
Proof.
  intros [g [u' [-> [G [O [N R]]]]]]. destruct (R [] "]"%char r st [] ltac:(constructor) ltac:(now left)) as [mid [st1 [R1 R2]]].
  eapply go_seq; [eapply go_rule; [cbn [grammar]; eapply go_seq; [apply lit1|rewrite <- app_assoc; apply gows; [assumption|apply okhd_nb, hd_app, O]]|reflexivity]|].
  eapply go_seq; [|apply lit1]. quiet. eapply go_seq; [exact R1|exact R2].
Qed.
(** (...) *)
Lemma orderArgs_id l : Forall (fun e => isNamed e = false) l -> orderArgs l = l.
Proof.
  intros F. unfold orderArgs.
  assert (A : filter isNamed l = []) by (induction F as [|x l X F IH]; [reflexivity|]; cbn; now rewrite X).
  assert (B : filter (fun e => negb (isNamed e)) l = l).
  { clear A. induction F as [|x l X F IH]; [reflexivity|]. cbn. rewrite X. cbn. now rewrite IH. }
  now rewrite A, B.
Qed.
Lemma go_args l u r st f : PI l u -> Forall (fun e => isNamed e = false) l ->
  go (PRule R_ChainedCall) ("("%char :: u ++ ")"%char :: r) r (push f st) (push (ECall f l false) st).
Proof.
  intros [g [u' [-> [G [O [N R]]]]]] F. destruct (R [] ")"%char r (push f st) [] ltac:(constructor) ltac:(right; now left)) as [mid [st1 [R1 R2]]].
  eapply go_rule; [cbn [grammar]|].
  - eapply go_seq; [eapply go_rule; [cbn [grammar]; eapply go_seq; [apply lit1|rewrite <- app_assoc; apply gows; [assumption|apply okhd_nb, hd_app, O]]|reflexivity]|].
    eapply go_seq; [apply go_opt_some|apply lit1]. quiet.
    eapply go_seq; [apply go_alt_r; [apply fails_seq_l, N; exists ")"%char, r; split; [reflexivity|cbn; tauto]|exact R1]|exact R2].
  - intros w _. cbn [action pushI push b_stack app]. now rewrite orderArgs_id.
Qed.
Lemma go_args0 g r st f : gap g ->
  go (PRule R_ChainedCall) ("("%char :: g ++ ")"%char :: r) r (push f st) (push (ECall f [] false) st).
Proof.
  intros G. eapply go_rule; [cbn [grammar]|].
  - eapply go_seq; [eapply go_rule; [cbn [grammar]; eapply go_seq; [apply lit1|apply gows; [assumption|reflexivity]]|reflexivity]|].
    eapply go_seq; [apply go_opt_none; dead|apply lit1].
  - reflexivity.
Qed.

(** ** assignments *)
Definition P0 (e : expr) (u : text) : Prop := exists g t g', u = g ++ t ++ g' /\ gap g /\ PW true 8 e t /\ gap g'.
Definition PM (l : list (expr * expr)) (u : text) : Prop :=
  exists g u', u = g ++ u' /\ gap g /\ hd_is okhd u' = true /\
  forall g0 c r st m, gap g0 -> In c ["}"; ")"]%char -> exists mid st1,
    go (PRule R_Assignment) (g0 ++ u' ++ c :: r) mid (push (EMap m) st) st1 /\
    go (PStar ((PLit ",") ~> @@R_Assignment)) mid (c :: r) st1 (push (EMap (m ++ l)) st).
Lemma go_assign k tk g' v w c r : PW true 8 k tk -> gap g' -> P0 v w -> In c ["}"; ")"; ","]%char ->
  forall g0 st m, gap g0 ->
  go (PRule R_Assignment) (g0 ++ (tk ++ g' ++ "="%char :: w) ++ c :: r) (c :: r) (push (EMap m) st) (push (EMap (m ++ [(k, v)])) st).
Proof.
  intros Pk G' [h [tv [h' [-> [H [Pv H']]]]]] I g0 st m G0.
  replace ((tk ++ g' ++ "="%char :: h ++ tv ++ h') ++ c :: r) with (tk ++ g' ++ ("="%char :: (h ++ tv ++ h' ++ c :: r))) by apps.
  pose proof Pv as [[Ov _ _] _].
  eapply go_rule; [cbn [grammar]|].
  - eapply go_seq; [apply (read8 k tk Pk g0 g'); trivial|].
    + destruct H as [|d h B H]; cbn [app].
      * destruct tv as [|d tv]; [discriminate|]. apply closing_eq. intros ->. discriminate.
      * apply closing_eq. intros ->. apply blankb_spec in B. discriminate.
    + apply stop0_gap; [assumption|]. intros _. cbn. right; left; reflexivity.
    + eapply go_seq; [apply lit1|]. apply (read8 v tv Pv h h'); trivial.
      * apply closing_hd. cbn in I |- *. tauto.
      * apply stop0_gap; [assumption|]. intros _. heads; cbn; right; left; reflexivity.
  - reflexivity.
Qed.
Lemma PM_one k u v w : P0 k u -> P0 v w -> PM [(k, v)] (u ++ "="%char :: w).
Proof.
  intros [g [tk [g' [-> [G [Pk G']]]]]] Pv. exists g, (tk ++ g' ++ "="%char :: w). pose proof Pk as [[Ok _ _] _]. conjs; trivial.
  - apps.
  - now apply hd_app.
  - intros g0 c r st m G0 I. exists (c :: r), (push (EMap (m ++ [(k, v)])) st). split.
    + apply go_assign; trivial. cbn in I |- *. tauto.
    + apply go_star_nil, fails_seq_l. heads; dead.
Qed.
Lemma PM_more k u v w l t : P0 k u -> P0 v w -> PM l t -> PM ((k, v) :: l) (u ++ "="%char :: w ++ ","%char :: t).
Proof.
  intros [g [tk [g' [-> [G [Pk G']]]]]] Pv [h [t' [-> [H [Ot R]]]]].
  exists g, (tk ++ g' ++ "="%char :: w ++ ","%char :: h ++ t'). pose proof Pk as [[Ok _ _] _]. conjs; trivial.
  - apps.
  - now apply hd_app.
  - intros g0 c r st m G0 I. destruct (R h c r st (m ++ [(k, v)]) H I) as [mid [st1 [R1 R2]]].
    exists (","%char :: h ++ t' ++ c :: r), (push (EMap (m ++ [(k, v)])) st). split.
    + replace ((tk ++ g' ++ "="%char :: w ++ ","%char :: h ++ t') ++ c :: r)
        with ((tk ++ g' ++ "="%char :: w) ++ ","%char :: (h ++ t' ++ c :: r)) by apps.
      apply go_assign; trivial. cbn. tauto.
    + replace (m ++ (k, v) :: l) with ((m ++ [(k, v)]) ++ l) by (now rewrite <- app_assoc).
      eapply go_star_cons; [eapply go_seq; [apply lit1|exact R1]|exact R2].
Qed.
Lemma go_assigns l u c r st : PM l u -> In c ["}"; ")"]%char ->
  go (@@R_ws ~> POpt @@R_Assignments ~> PLit (String c EmptyString)) (u ++ c :: r) r (push (EMap []) st) (push (EMap l) st).
Proof.
  intros [g [u' [-> [G [O R]]]]] I. destruct (R [] c r st [] ltac:(constructor) I) as [mid [st1 [R1 R2]]].
  eapply go_seq; [rewrite <- app_assoc; apply gows; [assumption|apply okhd_nb, hd_app, O]|].
  eapply go_seq; [apply go_opt_some|apply lit1]. quiet. eapply go_seq; [exact R1|exact R2].
Qed.
Lemma PW_scope l u g g' e t : PM l u -> gap g -> gap g' -> PW true 8 e t ->
  PW true 8 (EScope l e) ("("%char :: g ++ u ++ ")"%char :: g' ++ t).
Proof.
  intros M G G' P. split; [split; [reflexivity|apply nopref_hd; discriminate|apply noname_hd; [reflexivity|reflexivity|discriminate]]|].
  split; [lia|]. intros g0 h s1 [G0 _] H K S. exists s1. split; [now left|]. intros st.
  pose proof P as [[O _ _] _].
  replace (("("%char :: g ++ u ++ ")"%char :: g' ++ t) ++ h ++ s1) with ("("%char :: (g ++ u) ++ ")"%char :: (g' ++ t ++ h ++ s1)) by apps.
  assert (M' : PM l (g ++ u)).
  { destruct M as [gu [u' [-> [Gu R]]]]. exists (g ++ gu), u'. rewrite <- app_assoc. repeat split; try apply R. now apply gap_app. }
  cbn [lv]. quiet. eapply go_seq; [|apply (gows [] s1); [constructor|apply K]]. apply go_alt_l.
  eapply go_rule; [cbn [grammar]|].
  - eapply go_seq; [apply gows; [assumption|reflexivity]|].
    eapply go_seq; [quiet; eapply go_seq; [eapply go_rule; [apply lit1|reflexivity]|apply (go_assigns l (g ++ u) ")"); [assumption|cbn; tauto]]|].
    eapply go_seq; [apply gows; [assumption|apply okhd_nb, hd_app, O]|].
    apply (read8 e t P [] h); trivial. constructor.
  - reflexivity.
Qed.
End W.
