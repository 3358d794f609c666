(** The parser reads every written expression (Written.v): operands, and the induction
    over all texts. *)
From Verif Require Import Core CoreFacts Str StrFacts DecSpec Peg PegFacts Grammar Eval Parser ParserFacts ParserRead Written ParserWords ParserClean ParserLits ParserWritten ParserAll ParserOps ParserMerge.
From Coq Require Import SpecFloat Lia PeanoNat.
Import ListNotations.

Section W.
Variable parseFloat : string -> option spec_float.
Variable path stubPath : list string.
Notation go := (go parseFloat path stubPath).
Notation chain := (PStar (PRule R_ChainedQualifiedExpression)).
Notation lit1 := (go_lit1 parseFloat path stubPath).
Notation gows := (go_ws parseFloat path stubPath).
Notation goreq := (go_req parseFloat path stubPath).
Notation opened := (opened parseFloat path stubPath).
Notation closed := (closed parseFloat path stubPath).
Notation PW := (PW parseFloat path stubPath).
Notation noscope_hd := (noscope_hd parseFloat path stubPath).
Notation front_hd := (front_hd parseFloat path stubPath).
Notation front_word := (front_word parseFloat path stubPath).
Notation closing_bars := (closing_bars parseFloat path stubPath).
Notation step_fails := (step_fails parseFloat path stubPath).
Notation closing_step := (closing_step parseFloat path stubPath).
Notation startOK_ops := (startOK_ops parseFloat path stubPath).
Notation closing_stops := (closing_stops parseFloat path stubPath).
Notation closed_read := (closed_read parseFloat path stubPath).
Notation read8 := (read8 parseFloat path stubPath).
Notation written := (written path stubPath).
Notation operand := (operand path stubPath).
Notation lambdaText := (lambdaText path stubPath).
Notation items := (items path stubPath).
Notation elem := (elem path stubPath).
Notation pairs := (pairs path stubPath).
Notation elem0 := (elem0 path stubPath).
Notation source := (source path stubPath).
Notation PL := (PL parseFloat path stubPath).
Notation PE := (PE parseFloat path stubPath).
Notation PI := (PI parseFloat path stubPath).
Notation P0 := (P0 parseFloat path stubPath).
Notation PM := (PM parseFloat path stubPath).
Ltac rd L := exact (go_reads parseFloat path stubPath _ _ _ _ L).
Ltac quiet := eapply go_rule0; [|intros ?; match goal with |- _ _ _ ?s = _ => now destruct s end]; cbn [grammar].
Ltac apps := rewrite <- ?app_assoc; cbn [app]; rewrite <- ?app_assoc; cbn [app]; rewrite <- ?app_assoc; cbn [app]; rewrite <- ?app_assoc; cbn [app]; rewrite <- ?app_assoc; reflexivity.

(** ** operands *)
Definition PO (e : expr) (t : text) : Prop :=
  front t /\ forall s s' st st', (openPath e -> refstop s) -> go chain s s' (push e st) st' -> go (PRule R_Level0) (t ++ s) s' st st'.
Lemma PO_base e t : front t ->
  (forall s st, (openPath e -> refstop s) -> nolit (t ++ s) /\ go base (t ++ s) s st (push e st)) -> PO e t.
Proof.
  intros F H. split; [assumption|]. intros s s' st st' R C. destruct (H s st R) as [N B].
  eapply go_base; eassumption.
Qed.
Lemma PO_chain e t e' u : PO e t -> tailok u -> (forall s, openPath e -> refstop (u ++ s)) ->
  (forall s st, (openPath e' -> refstop s) -> go (PRule R_ChainedQualifiedExpression) (u ++ s) s (push e st) (push e' st)) ->
  PO e' (t ++ u).
Proof.
  intros [F H] T R C. split; [now apply front_ap|]. intros s s' st st' S K. rewrite <- app_assoc.
  apply H; [auto|]. eapply go_star_cons; [now apply C|exact K].
Qed.
Lemma PW_operand e t : PO e t -> PW false 0 e t.
Proof.
  intros [F H]. apply PW0; [assumption|]. intros s st S. apply H; [intros _; now apply stop0_ref|].
  apply go_star_nil. now apply stop0_chain.
Qed.
(** references *)
Lemma fol_parts ps s : fol s -> fol (List.concat (map partText ps) ++ s).
Proof.
  intros F. destruct ps as [|[k|[] n] ps]; [exact F|..]; cbn [map List.concat partText app];
    (split; [reflexivity|cbn; reflexivity]).
Qed.
Lemma noname_key k t : Forall (fun c => isKey c = true) k -> (forall s, fol s -> fol (t ++ s)) -> noname (k ++ t).
Proof.
  intros F H s Fs. rewrite <- app_assoc. induction F as [|c k C F [w [v [E [W V]]]]].
  - exists [], (t ++ s). repeat split; [constructor|..]; now apply H.
  - destruct (isWord c) eqn:Wc.
    + exists (c :: w), v. cbn. rewrite E. repeat split; [now constructor|apply V|apply V].
    + exists [], ((c :: k) ++ t ++ s). assert (c = "-"%char).
      { unfold isKey in C. rewrite Wc in C. now apply Ascii.eqb_eq in C. }
      subst c. repeat split. constructor.
Qed.
Lemma PO_ref k ps : plainName k -> Forall partOk ps ->
  PO (ERef "" (ofchars k :: map partName ps)) (k ++ List.concat (map partText ps)).
Proof.
  intros P F. pose proof P as [K [NN [_ Ws]]]. destruct (key_cons k K) as [c [r [Ek [Wc Fr]]]].
  apply PO_base.
  - split; [split|..].
    + subst k. cbn. now apply okhd_word.
    + intros s d Hs Bd [x E]. rewrite <- app_assoc in E. rewrite Forall_forall in Ws.
      apply (Ws "prefer"%string); [cbn; tauto|].
      apply (word_open (chars "prefer") d k (List.concat (map partText ps) ++ s)).
      * repeat constructor.
      * now apply blank_word.
      * now apply key_all.
      * destruct ps as [|[?|[] ?] ps]; [exact Hs|reflexivity..].
      * now exists x.
    + apply noname_key; [now apply key_all|apply fol_parts].
    + subst k. cbn. unfold starter. now rewrite Wc.
    + subst k. apply noscope_hd; [cbn; now apply okhd_word|]. cbn. destruct (Ascii.eqb_spec c "("); [subst; discriminate|reflexivity].
  - intros s st R. specialize (R Logic.I).
    assert (Hk : hd_is isKey (List.concat (map partText ps) ++ s) = false).
    { destruct ps as [|[?|[] ?] ps]; [apply tight_key, R|reflexivity..]. }
    split.
    + intros q Q. rewrite <- app_assoc. apply ref_lits; trivial.
    + unfold base. rewrite <- app_assoc.
      repeat (apply go_alt_r; [apply (ref_aggs parseFloat); [inl|assumption|assumption]|]).
      apply go_alt_l. rewrite app_assoc. apply go_Reference; trivial. now right.
Qed.
Lemma PO_root k ps : key k -> Forall partOk ps ->
  PO (ERef "" (""%string :: ofchars k :: map partName ps)) ("."%char :: k ++ List.concat (map partText ps)).
Proof.
  intros K F. apply PO_base.
  - apply front_hd; try reflexivity; discriminate.
  - intros s st R. specialize (R Logic.I). split; [apply nolit_hd; inl|].
    unfold base. do 13 (apply go_alt_r; [dead|]). apply go_alt_l. now apply go_RootReference.
Qed.
(** groups *)
Lemma PO_group g e t g' : gap g -> PW true 8 e t -> gap g' -> PO (EGroup e) ("("%char :: g ++ t ++ g' ++ [")"%char]).
Proof.
  intros G P G'. pose proof P as [[O _ _] _].
  assert (R : forall s st, go (PRule R_Expression) (g ++ t ++ g' ++ ")"%char :: s) (")"%char :: s) st (push e st)).
  { intros s st. apply read8; trivial; [apply closing_hd; inl|]. apply stop0_gap; [assumption|]. intros _. cbn. right; now left. }
  apply PO_base.
  - split; [split; [reflexivity|apply nopref_hd; discriminate|apply noname_hd; [reflexivity|reflexivity|discriminate]]|reflexivity|].
    intros h s H. replace (("("%char :: g ++ t ++ g' ++ [")"%char]) ++ s) with ("("%char :: g ++ t ++ g' ++ ")"%char :: s) by apps.
    apply fails_rule. cbn [grammar]. eapply fails_seq_r; [rd (gows h ("("%char :: g ++ t ++ g' ++ ")"%char :: s) start H eq_refl)|].
    apply fails_seq_l, fails_rule. cbn [grammar].
    eapply fails_seq_r; [apply reads_rule; rd (lit1 "(" (g ++ t ++ g' ++ ")"%char :: s) start)|].
    eapply fails_seq_r; [rd (gows g (t ++ g' ++ ")"%char :: s) start G (okhd_nb _ (hd_app _ _ _ O)))|].
    eapply fails_seq_r.
    + eapply go_reads. apply (go_opt_none parseFloat path stubPath) with (st := start). apply fails_rule, fails_seq_l, fails_rule. cbn [grammar].
      apply (fails_seq_r _ _ _ (")"%char :: s)); [|apply fails_seq_l; dead].
      eapply go_reads. apply (read8 e t P [] g' (")"%char :: s) start); trivial; [constructor|apply closing_hd; inl|].
      apply stop0_gap; [assumption|]. intros _. cbn. right; now left.
    + apply fails_lit1. destruct t as [|c t]; [discriminate|]. cbn in O |- *.
      destruct (Ascii.eqb_spec c ")"); [subst; discriminate|reflexivity].
  - intros s st _. cbn [app]. split; [apply nolit_hd; inl|].
    replace ((g ++ t ++ g' ++ [")"%char]) ++ s) with (g ++ t ++ g' ++ ")"%char :: s) by apps.
    unfold base. do 12 (apply go_alt_r; [dead|]). apply go_alt_l.
    eapply go_rule; [cbn [grammar]; eapply go_seq; [apply lit1|eapply go_seq; [apply R|apply lit1]]|reflexivity].
Qed.
(** lists *)
Ltac bracket := apply front_hd; [reflexivity|reflexivity|discriminate|reflexivity].
Lemma PO_list0 g : gap g -> PO (EList []) ("["%char :: g ++ ["]"%char]).
Proof.
  intros G. apply PO_base; [bracket|]. intros s st _. cbn [app]. split; [apply nolit_hd; inl|].
  replace ((g ++ ["]"%char]) ++ s) with (g ++ "]"%char :: s) by apps.
  unfold base. do 9 (apply go_alt_r; [dead|]). apply go_alt_l.
  eapply go_rule; [cbn [grammar]|].
  - eapply go_seq; [eapply go_rule; [cbn [grammar]; eapply go_seq; [apply lit1|apply gows; [assumption|reflexivity]]|reflexivity]|].
    eapply go_seq; [apply go_opt_none; dead|apply lit1].
  - reflexivity.
Qed.
Lemma go_List l u r st : PI l u -> go (PRule R_List) ("["%char :: u ++ "]"%char :: r) r st (push (EList l) st).
Proof.
  intros [g [u' [-> [G [O [N R]]]]]]. destruct (R [] "]"%char r st [] ltac:(constructor) ltac:(now left)) as [mid [st1 [R1 R2]]].
  eapply go_rule; [cbn [grammar]|].
  - eapply go_seq; [eapply go_rule; [cbn [grammar]; eapply go_seq; [apply lit1|rewrite <- app_assoc; apply gows; [assumption|apply okhd_nb, hd_app, O]]|reflexivity]|].
    eapply go_seq; [apply go_opt_some|apply lit1]. quiet. eapply go_seq; [exact R1|exact R2].
  - reflexivity.
Qed.
Lemma PO_list l u : PI l u -> PO (EList l) ("["%char :: u ++ ["]"%char]).
Proof.
  intros P. apply PO_base; [bracket|]. intros s st _. cbn [app]. split; [apply nolit_hd; inl|].
  replace ((u ++ ["]"%char]) ++ s) with (u ++ "]"%char :: s) by apps.
  unfold base. do 9 (apply go_alt_r; [dead|]). apply go_alt_l. now apply go_List.
Qed.
(** maps *)
Lemma PO_map0 g : gap g -> PO (EMap []) ("{"%char :: g ++ ["}"%char]).
Proof.
  intros G. apply PO_base; [bracket|]. intros s st _. cbn [app]. split; [apply nolit_hd; inl|].
  replace ((g ++ ["}"%char]) ++ s) with (g ++ "}"%char :: s) by apps.
  unfold base. do 10 (apply go_alt_r; [dead|]). apply go_alt_l. quiet.
  eapply go_seq; [eapply go_rule; [apply lit1|reflexivity]|]. eapply go_seq; [apply gows; [assumption|reflexivity]|].
  eapply go_seq; [apply go_opt_none; dead|apply lit1].
Qed.
Lemma PO_map l u : PM l u -> PO (EMap l) ("{"%char :: u ++ ["}"%char]).
Proof.
  intros P. apply PO_base; [bracket|]. intros s st _. cbn [app]. split; [apply nolit_hd; inl|].
  replace ((u ++ ["}"%char]) ++ s) with (u ++ "}"%char :: s) by apps.
  unfold base. do 10 (apply go_alt_r; [dead|]). apply go_alt_l. quiet.
  eapply go_seq; [eapply go_rule; [apply lit1|reflexivity]|]. apply (go_assigns parseFloat path stubPath l u "}"); [assumption|now left].
Qed.
(** ranges *)
Lemma PO_range g a ta g1 g2 b tb g3 : gap g -> PW true 8 a ta -> gap g1 -> gap g2 -> PW true 8 b tb -> gap g3 ->
  ~ startsWith ["."%char] (g2 ++ tb) ->
  PO (ERange (Some a) (Some b)) ("["%char :: g ++ ta ++ g1 ++ "."%char :: "."%char :: g2 ++ tb ++ g3 ++ ["]"%char]).
Proof.
  intros G Pa G1 G2 Pb G3 ND. apply PO_base; [bracket|]. intros s st _. cbn [app]. split; [apply nolit_hd; inl|].
  replace ((g ++ ta ++ g1 ++ "."%char :: "."%char :: g2 ++ tb ++ g3 ++ ["]"%char]) ++ s)
    with (g ++ ta ++ g1 ++ ("."%char :: "."%char :: (g2 ++ tb ++ g3 ++ "]"%char :: s))) by apps.
  set (x := g2 ++ tb ++ g3 ++ "]"%char :: s). pose proof Pa as [[Oa _ _] _]. pose proof Pb as [[Ob _ _] _].
  assert (ST : stop0 (g1 ++ "."%char :: "."%char :: x)).
  { apply stop0_gap; [assumption|]. intros _. cbn. right; right; right. split; reflexivity. }
  assert (X : hd_is (fun c => Ascii.eqb c ".") x = false).
  { subst x. destruct G2 as [|c g2 B G2]; cbn [app].
    - destruct tb as [|c tb]; [discriminate|]. cbn. destruct (Ascii.eqb_spec c "."); [|reflexivity]. subst.
      exfalso. apply ND. now exists tb.
    - cbn. destruct (Ascii.eqb_spec c "."); [subst; apply blankb_spec in B; discriminate|reflexivity]. }
  unfold base. do 9 (apply go_alt_r; [dead|]). apply go_alt_r; [|apply go_alt_r; [dead|]; apply go_alt_l].
  - apply fails_rule. cbn [grammar]. eapply fails_seq_r.
    { apply reads_rule. cbn [grammar]. eapply go_reads. eapply (go_seq parseFloat path stubPath) with (st := start); [apply lit1|].
      apply gows; [exact G|apply okhd_nb, hd_app, Oa]. }
    apply (fails_seq_r _ _ _ ("."%char :: "."%char :: x)); [|dead]. eapply (go_reads_at parseFloat path stubPath _ _ _ (pushI (IList []) start)); [now repeat split|]. apply (go_opt_some parseFloat path stubPath) with (st := pushI (IList []) start).
    assert (ND3 : fails (PRule R_ListExpansion) ("."%char :: "."%char :: x)).
    { apply fails_rule, fails_seq_l, fails_word. intros [r E]. cbn in E. inversion E as [E1].
      subst x. rewrite E1 in X. discriminate. }
    quiet. eapply go_seq; [|apply go_star_nil, fails_seq_l; dead].
    eapply go_rule; [cbn [grammar]; eapply go_seq; [apply (read8 a ta Pa [] g1 ("."%char :: "."%char :: x)); [apply Forall_nil|assumption|apply closing_dots|assumption]|apply go_opt_none, ND3]|reflexivity].
  - eapply go_rule; [cbn [grammar]|].
    + eapply go_seq; [eapply go_rule; [apply lit1|reflexivity]|].
      eapply go_seq; [apply go_opt_some, (read8 a ta Pa g g1); trivial; apply closing_dots|].
      eapply go_seq; [eapply go_rule; [apply (go_lit parseFloat path stubPath "..")|intros w Ew; apply (app_inv_tail x ["."; "."]%char) in Ew; subst w; reflexivity]|].
      eapply go_seq; [apply go_opt_some, (read8 b tb Pb g2 g3); trivial; [apply closing_hd; inl|]|apply lit1].
      apply stop0_gap; [assumption|]. intros _. cbn. right; now left.
    + reflexivity.
Qed.
(** aggregations *)
Lemma go_LambdaOrExpr e t g s1 st : PL e t -> gap g -> closing s1 -> stop0 s1 ->
  go (PRule R_LambdaOrExpr) (g ++ t ++ s1) s1 st (push e st).
Proof. intros [_ [_ L]] G K S. quiet. apply go_alt_l. apply (L g [] s1); trivial. constructor. Qed.
Lemma go_before a ta g g' x st : PW false 7 a ta -> gap g -> gap g' -> closing x -> stop0 (g' ++ x) ->
  go (PRule R_Level7) (g ++ ta ++ g' ++ x) (g' ++ x) st (push a st).
Proof.
  intros [_ [_ C]] G G' K S. apply (closed_read 7 a ta ltac:(lia) C g); [split; [assumption|lia]|now apply closing_stops|].
  intros _. apply closing_step; trivial. inl.
Qed.
Lemma go_agg a ta g g' e t c r st : PW false 7 a ta -> gap g -> gap g' -> PL e t -> In c ["]"; "}"]%char ->
  go (@@R_Level7 ~> @@R_LambdaOrExpr ~> PLit (String c EmptyString)) (g ++ ta ++ g' ++ t ++ c :: r) r st (push e (push a st)).
Proof.
  intros P G G' L I. pose proof L as [[q Eq] [K _]].
  eapply go_seq; [apply (go_before a ta g g' (t ++ c :: r)); [assumption|assumption|assumption|apply K|]|].
  - apply stop0_gap; [assumption|]. intros _. subst t. cbn. right; left; reflexivity.
  - eapply go_seq; [apply (go_LambdaOrExpr e t); trivial|apply lit1].
    + apply closing_hd. cbn in I |- *. tauto.
    + heads; cbn; right; left; reflexivity.
Qed.
Lemma fol_open c t s : In c ["["; "{"]%char -> fol ((c :: t) ++ s).
Proof. intros I. apply fol_hd; heads; try reflexivity; discriminate. Qed.
Ltac aggfront w := apply (front_word _ w); [reflexivity|discriminate|repeat constructor|intros ? _; apply fol_open; inl].
Lemma PO_agg kw cl k g a ta g' e t : aggregation kw cl k -> gap g -> PW false 7 a ta -> gap g' -> PL e t ->
  PO (k a e) (chars kw ++ g ++ ta ++ g' ++ t ++ [cl]).
Proof.
  intros A G P G' L. apply PO_base.
  - destruct A;
      match goal with
      | |- front (chars "map[" ++ ?x) => apply (front_word "m" ["a"; "p"]%char ("["%char :: x))
      | |- front (chars "map{" ++ ?x) => apply (front_word "m" ["a"; "p"]%char ("{"%char :: x))
      | |- front (chars "select[" ++ ?x) => apply (front_word "s" ["e"; "l"; "e"; "c"; "t"]%char ("["%char :: x))
      | |- front (chars "select{" ++ ?x) => apply (front_word "s" ["e"; "l"; "e"; "c"; "t"]%char ("{"%char :: x))
      | |- front (chars "filter[" ++ ?x) => apply (front_word "f" ["i"; "l"; "t"; "e"; "r"]%char ("["%char :: x))
      | |- front (chars "filter{" ++ ?x) => apply (front_word "f" ["i"; "l"; "t"; "e"; "r"]%char ("{"%char :: x))
      | |- front (chars "catch[" ++ ?x) => apply (front_word "c" ["a"; "t"; "c"; "h"]%char ("["%char :: x))
      end; try reflexivity; try discriminate; try (repeat constructor); intros ? _; apply fol_open; inl.
  - intros s st _.
    replace ((chars kw ++ g ++ ta ++ g' ++ t ++ [cl]) ++ s) with (chars kw ++ (g ++ ta ++ g' ++ t ++ cl :: s)) by apps.
    set (y := g ++ ta ++ g' ++ t ++ cl :: s).
    assert (Y : forall c, In c ["]"; "}"]%char -> cl = c -> go (@@R_Level7 ~> @@R_LambdaOrExpr ~> PLit (String c EmptyString)) y s st (push e (push a st))).
    { intros c I <-. now apply go_agg. }
    split; [intros q Q; destruct A; heads; dead|].
    unfold base.
    assert (Z : forall r o c k', grammar r = (PLit o ~> @@R_Level7 ~> @@R_LambdaOrExpr ~> PLit (String c EmptyString)) ->
      In c ["]"; "}"]%char -> cl = c ->
      option_rule r = false -> (forall w, Parser.action parseFloat path stubPath r w (push e (push a st)) = BSt (push k' st)) ->
      go (PRule r) (chars o ++ y) s st (push k' st)).
    { intros r o c k' Er I Ec Or Act. eapply go_rule; [rewrite Er; eapply go_seq; [apply go_lit|now apply Y]|intros w _; rewrite Or; apply Act]. }
    destruct A;
      [do 3 (apply go_alt_r; [dead|]) | | do 7 (apply go_alt_r; [dead|]) | do 6 (apply go_alt_r; [dead|])
      | do 4 (apply go_alt_r; [dead|]) | do 5 (apply go_alt_r; [dead|]) | do 2 (apply go_alt_r; [dead|])];
      apply go_alt_l; eapply Z; first [reflexivity|inl].
Qed.
Lemma PO_sum g a ta g1 i ti g2 e t : gap g -> PW false 7 a ta -> gap g1 -> PW false 7 i ti -> gap g2 -> PL e t ->
  PO (ESum a i e) (chars "sum[" ++ g ++ ta ++ "|"%char :: g1 ++ ti ++ g2 ++ t ++ ["]"%char]).
Proof.
  intros G Pa G1 Pi G2 L. apply PO_base.
  - match goal with |- front (chars "sum[" ++ ?x) => apply (front_word "s" ["u"; "m"]%char ("["%char :: x)) end;
      try reflexivity; try discriminate; try (repeat constructor); intros ? _; apply fol_open; inl.
  - intros s st _.
    replace ((chars "sum[" ++ g ++ ta ++ "|"%char :: g1 ++ ti ++ g2 ++ t ++ ["]"%char]) ++ s)
      with (chars "sum[" ++ (g ++ ta ++ "|"%char :: (g1 ++ ti ++ g2 ++ t ++ "]"%char :: s))) by apps.
    split; [intros q Q; heads; dead|].
    unfold base. do 8 (apply go_alt_r; [dead|]). apply go_alt_l.
    eapply go_rule; [cbn [grammar]; eapply go_seq; [apply go_lit|]|].
    + eapply go_seq; [|eapply go_seq; [apply lit1|apply (go_agg i ti g1 g2 e t "]"%char s); trivial; now left]].
      destruct Pa as [_ [_ C]]. apply (closed_read 7 a ta ltac:(lia) C g); [split; [assumption|lia]| |].
      * split; [cbn; right; left; reflexivity|]. split; [intros k K1 K2; apply (step_fails k []); [constructor|reflexivity|now left]|].
        intros _. exists [], ("|"%char :: g1 ++ ti ++ g2 ++ t ++ "]"%char :: s). repeat split. constructor.
      * intros _. apply (step_fails 7 []); [constructor|reflexivity|now left].
    + reflexivity.
Qed.
(** calls and keys *)
Lemma refstop_open c r : c = "("%char -> refstop (c :: r).
Proof. intros ->. split; [cbn; right; left; reflexivity|dead]. Qed.
Lemma PO_call0 f tf g : PO f tf -> gap g -> PO (ECall f [] false) (tf ++ "("%char :: g ++ [")"%char]).
Proof.
  intros P G. apply (PO_chain f); trivial.
  - apply tailok_hd; [reflexivity|reflexivity|discriminate].
  - intros s _. now apply refstop_open.
  - intros s st _. quiet. apply go_alt_l.
    replace (("("%char :: g ++ [")"%char]) ++ s) with ("("%char :: g ++ ")"%char :: s) by apps. now apply go_args0.
Qed.
Lemma PO_call f tf l u : PO f tf -> PI l u -> Forall (fun e => isNamed e = false) l -> PO (ECall f l false) (tf ++ "("%char :: u ++ [")"%char]).
Proof.
  intros P I F. apply (PO_chain f); trivial.
  - apply tailok_hd; [reflexivity|reflexivity|discriminate].
  - intros s _. now apply refstop_open.
  - intros s st _. quiet. apply go_alt_l.
    replace (("("%char :: u ++ [")"%char]) ++ s) with ("("%char :: u ++ ")"%char :: s) by apps. now apply go_args.
Qed.
Lemma go_curry c u s f l st : u = "("%char :: c -> go (PRule R_ChainedCall) (u ++ s) s (push f st) (push (ECall f l false) st) ->
  go (PRule R_ChainedQualifiedExpression) (("*"%char :: u) ++ s) s (push f st) (push (ECall f l true) st).
Proof.
  intros E G. quiet. apply go_alt_r; [dead|]. apply go_alt_l. cbn [app].
  eapply go_rule; [cbn [grammar]; eapply go_seq; [apply lit1|exact G]|]. reflexivity.
Qed.
Lemma refstop_star r : refstop ("*"%char :: r).
Proof. split; [cbn; right; left; reflexivity|dead]. Qed.
Lemma PO_curry0 f tf g : PO f tf -> gap g -> PO (ECall f [] true) (tf ++ "*"%char :: "("%char :: g ++ [")"%char]).
Proof.
  intros P G. apply (PO_chain f); trivial.
  - apply tailok_hd; [reflexivity|reflexivity|discriminate].
  - intros s _. apply refstop_star.
  - intros s st _. eapply go_curry; [reflexivity|].
    replace (("("%char :: g ++ [")"%char]) ++ s) with ("("%char :: g ++ ")"%char :: s) by apps. now apply go_args0.
Qed.
Lemma PO_curry f tf l u : PO f tf -> PI l u -> Forall (fun e => isNamed e = false) l -> PO (ECall f l true) (tf ++ "*"%char :: "("%char :: u ++ [")"%char]).
Proof.
  intros P I F. apply (PO_chain f); trivial.
  - apply tailok_hd; [reflexivity|reflexivity|discriminate].
  - intros s _. apply refstop_star.
  - intros s st _. eapply go_curry; [reflexivity|].
    replace (("("%char :: u ++ [")"%char]) ++ s) with ("("%char :: u ++ ")"%char :: s) by apps. now apply go_args.
Qed.
Lemma PO_qual e t ps : PO e t -> ~ openPath e -> ps <> [] -> Forall partOk ps ->
  PO (EQual e (map partName ps)) (t ++ List.concat (map partText ps)).
Proof.
  intros P N NE F. pose proof F as F0. destruct F as [|p ps O F]; [contradiction|].
  apply (PO_chain e); trivial.
  - destruct p as [k|[] n]; apply tailok_hd; try reflexivity; discriminate.
  - intros s Q. contradiction.
  - intros s st R. specialize (R Logic.I). quiet.
    apply go_alt_r; [destruct p as [k|[] n]; dead|]. apply go_alt_r; [destruct p as [k|[] n]; dead|]. apply go_alt_l.
    eapply go_rule; [cbn [grammar map List.concat]; rewrite <- app_assoc; eapply go_seq; [apply go_part; [assumption|apply sep_parts, sep_tight, R]|now apply go_parts]|].
    intros w E. change (partText p ++ List.concat (map partText ps)) with (List.concat (map partText (p :: ps))) in E.
    apply app_inv_tail in E. subst w. cbn [action]. now rewrite path_qual.
Qed.
Lemma first_bracket n : Forall (fun c => c <> "]"%char) n -> forall u s v, u ++ "]"%char :: s = n ++ "]"%char :: v ->
  exists v', u ++ ["]"%char] = n ++ "]"%char :: v'.
Proof.
  induction 1 as [|c n C F IH]; intros u s v E.
  - destruct u as [|d u]; cbn in *; [now exists []|]. inversion E; subst. now exists (u ++ ["]"%char]).
  - destruct u as [|d u]; cbn in *; inversion E; subst; [contradiction|].
    destruct (IH u s v) as [v' E']; [assumption|]. exists v'. now rewrite E'.
Qed.
Lemma fails_Index_list u s : noIndex u -> fails (PRule R_Index) ("["%char :: u ++ "]"%char :: s).
Proof.
  intros N. apply fails_Index. intros n v I E. unfold brackets in E. cbn in E. inversion E as [E1]. clear E.
  rewrite <- app_assoc in E1. cbn in E1.
  destruct (first_bracket n) with (u := u) (s := s) (v := v) as [v' E']; trivial.
  - eapply Forall_impl; [|exact (index_chars n I)]. intros c C ->. discriminate.
  - now apply (N n v').
Qed.
Lemma fails_Part_list (dot : bool) u s : noIndex u ->
  fails (PRule R_PathComponent) ((if dot then ["."%char] else []) ++ "["%char :: u ++ "]"%char :: s).
Proof.
  intros N. apply fails_rule. cbn [grammar]. apply fails_alt.
  - destruct dot; cbn [app].
    + eapply fails_seq_r; [rd (lit1 "." ("["%char :: u ++ "]"%char :: s) start)|]. now apply fails_Key.
    + apply fails_seq_l. now apply fails_lit1.
  - eapply fails_seq_r; [|apply (fails_Index_list u s N)]. destruct dot; cbn [app]; eapply go_reads.
    + apply (go_opt_some parseFloat path stubPath) with (st := start). apply lit1.
    + apply (go_opt_none parseFloat path stubPath) with (st := start). now apply fails_lit1.
Qed.
Lemma PO_dyn e t (dot : bool) l u : PO e t -> PI l u -> noIndex u ->
  PO (EDyn e (EList l)) (t ++ (if dot then ["."%char] else []) ++ "["%char :: u ++ ["]"%char]).
Proof.
  intros P I N. apply (PO_chain e); trivial.
  - destruct dot; apply tailok_hd; try reflexivity; discriminate.
  - intros s _. replace (((if dot then ["."%char] else []) ++ "["%char :: u ++ ["]"%char]) ++ s)
      with ((if dot then ["."%char] else []) ++ "["%char :: u ++ "]"%char :: s) by apps.
    split; [|now apply fails_Part_list]. destruct dot; cbn; [right; right; right; split; reflexivity|right; left; reflexivity].
  - intros s st _. replace (((if dot then ["."%char] else []) ++ "["%char :: u ++ ["]"%char]) ++ s)
      with ((if dot then ["."%char] else []) ++ "["%char :: u ++ "]"%char :: s) by apps.
    quiet. apply go_alt_r; [destruct dot; dead|]. apply go_alt_r; [destruct dot; dead|].
    apply go_alt_r; [apply fails_rule, fails_seq_l; now apply fails_Part_list|]. apply go_alt_l.
    assert (D : forall st, go (POpt (PLit ".")) ((if dot then ["."%char] else []) ++ "["%char :: u ++ "]"%char :: s) ("["%char :: u ++ "]"%char :: s) st st).
    { intros st1. destruct dot; cbn [app]; [apply go_opt_some, lit1|apply go_opt_none; now apply fails_lit1]. }
    eapply go_rule; [cbn [grammar]; eapply go_seq; [apply D|eapply go_rule; [cbn [grammar]; apply (go_list parseFloat path stubPath l u s _ I)|reflexivity]]|reflexivity].
Qed.

(** ** all texts *)
Lemma written_unnamed o n e t : written o n e t -> isNamed e = false.
Proof.
  induction 1 as [| |e t O|s z L R| | | | | | | |e t M|e t M|o op k e t g g' b tb M B _ _ _ _| | | |o n op k a ta g g' b tb B _ _ _ _ _ _| | |e t L|g e t G L| |]; trivial.
  - destruct O; try reflexivity. now destruct H.
  - now destruct M.
  - now destruct M.
  - now destruct B.
  - now destruct B.
  - now destruct L.
  - now destruct L.
Qed.
Lemma items_unnamed l u : items l u -> Forall (fun e => isNamed e = false) l.
Proof.
  assert (X : forall e u, elem e u -> isNamed e = false).
  { intros e v E. destruct E as [g e t g' G W G'|g e t g' g'' G W G' G'']; [now apply written_unnamed in W|reflexivity]. }
  induction 1 as [e u E|e u l v E _ IH]; constructor; eauto.
Qed.
Lemma lambda_is e t : lambdaText e t -> exists l va b, e = ELambda l va b.
Proof. intros L. destruct L; eauto. Qed.

Scheme written_i := Induction for Written.written Sort Prop
with operand_i := Induction for Written.operand Sort Prop
with lambdaText_i := Induction for Written.lambdaText Sort Prop
with items_i := Induction for Written.items Sort Prop
with elem_i := Induction for Written.elem Sort Prop
with pairs_i := Induction for Written.pairs Sort Prop
with elem0_i := Induction for Written.elem0 Sort Prop.
Lemma reads_written o n e t : written o n e t -> PW o n e t.
Proof.
  apply (written_i path stubPath (fun o n e t _ => PW o n e t) (fun e t _ => PO e t) (fun e t _ => PL e t) (fun l u _ => PI l u)
    (fun e u _ => PE e u) (fun l u _ => PM l u) (fun e u _ => P0 e u)); intros.
  - eapply PW_up; eassumption.
  - now apply PW_open.
  - now apply PW_operand.
  - now apply PW_int.
  - now apply PW_str.
  - apply PW_true.
  - apply PW_false.
  - apply PW_nil.
  - apply PW_tilde.
  - apply PW_undef.
  - apply PW_auto.
  - now apply PW_fullMerge.
  - now apply PW_openMerge.
  - now apply PW_mergeor.
  - now apply PW_symbol.
  - now apply PW_not.
  - now apply PW_subst.
  - now apply PW_binary.
  - now apply PW_concat.
  - now apply PW_cond.
  - now apply PW_lambda.
  - apply PW_lambda0; trivial. eapply lambda_is; eassumption.
  - now apply PW_lambdaref.
  - now apply PW_scope.
  - now apply PO_ref.
  - now apply PO_root.
  - now apply PO_group.
  - now apply PO_list0.
  - now apply PO_list.
  - now apply PO_map0.
  - now apply PO_map.
  - now apply PO_range.
  - now apply PO_agg.
  - now apply PO_sum.
  - now apply PO_call0.
  - apply PO_call; trivial. eapply items_unnamed; eassumption.
  - now apply PO_curry0.
  - apply PO_curry; trivial. eapply items_unnamed; eassumption.
  - now apply PO_qual.
  - now apply PO_dyn.
  - now apply PL_none.
  - now apply PL_some.
  - now apply PI_one.
  - now apply PI_more.
  - now apply PE_plain.
  - now apply PE_expand.
  - now apply PM_one.
  - now apply PM_more.
  - exists g, t0, g'. auto.
Qed.
(** ** markers *)
Lemma go_Marker m s st : marker m -> go (PRule R_Marker) (m ++ s) s st (push (EMarker [ofchars m] None) st).
Proof.
  intros M. eapply go_rule; [cbn [grammar]|intros w E; apply app_inv_tail in E; subst w; reflexivity].
  assert (X : exists w, m = "&"%char :: chars w /\ In w ["template"; "temporary"; "local"; "inject"; "state"; "default"; "dynamic"]%string).
  { unfold marker in M. cbn in M. repeat destruct M as [<-|M]; try contradiction M;
      [exists "template"%string|exists "temporary"%string|exists "local"%string|exists "inject"%string|exists "state"%string|exists "default"%string|exists "dynamic"%string];
      (split; [reflexivity|inl]). }
  destruct X as [w [-> I]]. cbn [app]. eapply go_seq; [apply lit1|].
  cbn in I. destruct I as [<-|[<-|[<-|[<-|[<-|[<-|[<-|[]]]]]]]].
  - apply go_alt_l, go_lit.
  - do 1 (apply go_alt_r; [dead|]). apply go_alt_l, go_lit.
  - do 2 (apply go_alt_r; [dead|]). apply go_alt_l, go_lit.
  - do 3 (apply go_alt_r; [dead|]). apply go_alt_l, go_lit.
  - do 4 (apply go_alt_r; [dead|]). apply go_alt_l, go_lit.
  - do 5 (apply go_alt_r; [dead|]). apply go_alt_l, go_lit.
  - do 6 (apply go_alt_r; [dead|]). apply go_alt_l, go_lit.
Qed.
Lemma marker_hd m s : marker m -> exists r, m ++ s = "&"%char :: r.
Proof. intros M. unfold marker in M. cbn in M. repeat destruct M as [<-|M]; try contradiction M; eexists; reflexivity. Qed.
Definition markend (s : text) : Prop := exists g x, s = g ++ x /\ gap g /\ (x = [] \/ exists y, x = "("%char :: y).
Lemma markend_stops s : markend s -> fails (@@R_req_ws ~> @@R_SubsequentMarker) s.
Proof.
  intros [g [x [-> [G X]]]]. assert (N : nb x) by (destruct X as [->|[y ->]]; reflexivity).
  destruct (gap_split g G) as [->|S]; [apply fails_seq_l; now apply fails_req|].
  eapply fails_seq_r; [rd (goreq g x start S N)|]. destruct X as [->|[y ->]]; dead.
Qed.
Lemma go_moreMarkers l t s st acc : moreMarkers l t -> markend s ->
  go (PStar (@@R_req_ws ~> @@R_SubsequentMarker)) (t ++ s) s (push (EMarker acc None) st) (push (EMarker (acc ++ l) None) st).
Proof.
  intros M E. revert acc. induction M as [|g m l t G M1 M IH]; intros acc.
  - rewrite app_nil_r. apply go_star_nil. now apply markend_stops.
  - rewrite <- !app_assoc. eapply go_star_cons.
    + eapply go_seq; [apply goreq; [assumption|destruct (marker_hd m (t ++ s) M1) as [r ->]; reflexivity]|].
      eapply go_rule; [cbn [grammar]; now apply go_Marker|]. intros w Ew. apply app_inv_tail in Ew. subst w. reflexivity.
    + specialize (IH (acc ++ [ofchars m])). rewrite <- app_assoc in IH. exact IH.
Qed.
Lemma markers_hd l u s : markers l u -> exists r, u ++ s = "&"%char :: r.
Proof. intros [m l' t M N]. rewrite <- app_assoc. now apply marker_hd. Qed.
Lemma go_markers l u s st : markers l u -> markend s ->
  go (@@R_Marker ~> (PStar (@@R_req_ws ~> @@R_SubsequentMarker))) (u ++ s) s st (push (EMarker l None) st).
Proof.
  intros [m l' t M N] E. rewrite <- app_assoc. eapply go_seq; [now apply go_Marker|].
  now apply (go_moreMarkers l' t s st [ofchars m]).
Qed.
Lemma go_assoc a b c s s1 s2 st st1 st2 : go (a ~> b) s s1 st st1 -> go c s1 s2 st1 st2 -> go (a ~> b ~> c) s s2 st st2.
Proof.
  intros A B C. destruct (A C) as [RA C1]. destruct (B C1) as [RB C2]. split; [|assumption]. clear A B C C1 C2.
  destruct RA as [f [t [w [-> [R X]]]]]. destruct RB as [f' [t' [w' [-> [R' X']]]]].
  destruct f as [|f]; [discriminate|]. cbn [run] in R.
  destruct (run grammar f a (sing (w ++ w' ++ s2))) as [| |y ta] eqn:Ra; try discriminate.
  destruct (run grammar f b y) as [| |z tb] eqn:Rb; try discriminate. inversion R; subst z t.
  exists (S (S (f + f'))), ((ta ++ tb) ++ t'), (w ++ w'). split; [now rewrite app_assoc|]. split.
  - remember (S (f + f')) as F eqn:EF. cbn [run]. rewrite (runs_up _ F _ _ _ Ra) by (lia || discriminate).
    subst F. cbn [run].
    rewrite (run_le rule grammar f (f + f') b y) by (lia || congruence). rewrite Rb.
    rewrite (runs_up _ (f + f') _ _ _ R') by (lia || discriminate). f_equal. apply app_assoc.
  - intros pre. rewrite exec_app, X. apply exec_suffix. apply X'.
Qed.
Lemma reads_source e t : source e t -> go (grammar R_Dynaml) t [] start (push e start).
Proof.
  intros S. destruct S as [g e t g' G W G'|g g1 e t g' G G1 W G'|g l u g' G M G'|g l u g1 g2 e t g3 g' G M G1 G2 W G3 G'].
  - pose proof (reads_written _ _ _ _ W) as P. pose proof P as [[O Np _] _].
    assert (B : nb (t ++ g')) by (apply okhd_nb, hd_app, O).
    cbn [grammar]. eapply go_seq; [apply go_alt_r; [|apply go_alt_r]|].
    + apply fails_rule. cbn [grammar]. eapply fails_seq_r; [rd (gows g (t ++ g') start G B)|].
      destruct (eat (chars "prefer") (sing (t ++ g'))) as [x|] eqn:E.
      * apply eat_prefix in E. destruct E as [r [E _]]. rewrite E.
        eapply fails_seq_r; [apply reads_lit|]. apply fails_seq_l, fails_req. destruct r as [|d r]; [reflexivity|].
        unfold nb. cbn. destruct (blankb d) eqn:D; [|reflexivity]. exfalso. apply blankb_spec in D.
        apply (Np g' d); trivial; [|exists r; rewrite <- app_assoc; exact E].
        destruct G' as [|q g' Q G']; [reflexivity|]. cbn. now apply blank_word.
      * apply fails_seq_l, fails_lit. exact E.
    + apply fails_rule. cbn [grammar]. eapply fails_seq_r; [rd (gows g (t ++ g') start G B)|].
      apply fails_seq_l, fails_rule, fails_seq_l, fails_lit1. destruct t as [|c t]; [discriminate|]. cbn in O |- *.
      destruct (Ascii.eqb_spec c "&"); [subst; discriminate|reflexivity].
    + replace (g ++ t ++ g') with (g ++ t ++ g' ++ []) by (now rewrite app_nil_r).
      apply (read8 e t P g g' []); trivial; [apply closing_nil|]. apply stop0_gap; [assumption|]. intros _. exact Logic.I.
    + apply go_not. now exists 1%nat.
  - pose proof (reads_written _ _ _ _ W) as P. pose proof P as [[O _ _] _].
    cbn [grammar]. eapply go_seq; [apply go_alt_l|].
    + eapply go_rule; [cbn [grammar]|].
      * eapply go_seq; [apply gows; [assumption|reflexivity]|]. eapply go_seq; [apply go_lit|].
        eapply go_seq; [apply goreq; [assumption|apply okhd_nb, hd_app, O]|].
        replace (t ++ g') with ([] ++ t ++ g' ++ []) by (now rewrite app_nil_r).
        apply (read8 e t P [] g' []); trivial; [constructor|apply closing_nil|]. apply stop0_gap; [assumption|]. intros _. exact Logic.I.
      * reflexivity.
    + apply go_not. now exists 1%nat.
  - destruct (markers_hd l u g' M) as [r Er].
    assert (Me : markend g') by (exists g', []; rewrite app_nil_r; auto).
    cbn [grammar]. eapply go_seq; [apply go_alt_r; [|apply go_alt_l]|].
    + apply fails_rule. cbn [grammar]. rewrite Er. eapply fails_seq_r; [rd (gows g ("&"%char :: r) start G eq_refl)|]. apply fails_seq_l. dead.
    + eapply go_rule; [cbn [grammar]|].
      * eapply go_seq; [apply gows; [assumption|now rewrite Er]|].
        eapply go_assoc; [apply (go_markers l u g'); assumption|].
        eapply go_seq; [replace g' with (g' ++ []) at 1 by apply app_nil_r; apply gows; [assumption|reflexivity]|].
        eapply go_seq; [apply go_opt_none; dead|]. apply (gows [] []); [constructor|reflexivity].
      * reflexivity.
    + apply go_not. now exists 1%nat.
  - pose proof (reads_written _ _ _ _ W) as P.
    set (x := "("%char :: g2 ++ t ++ g3 ++ [")"%char] ++ g').
    destruct (markers_hd l u (g1 ++ x) M) as [r Er].
    assert (Me : markend (g1 ++ x)) by (exists g1, x; repeat split; auto; right; eexists; reflexivity).
    cbn [grammar]. eapply go_seq; [apply go_alt_r; [|apply go_alt_l]|].
    + apply fails_rule. cbn [grammar]. rewrite Er. eapply fails_seq_r; [rd (gows g ("&"%char :: r) start G eq_refl)|]. apply fails_seq_l. dead.
    + eapply go_rule; [cbn [grammar]|].
      * eapply go_seq; [apply gows; [assumption|now rewrite Er]|].
        eapply go_assoc; [apply (go_markers l u (g1 ++ x)); assumption|].
        eapply go_seq; [apply gows; [assumption|reflexivity]|].
        eapply go_seq.
        { apply go_opt_some. eapply go_rule.
          - cbn [grammar]. subst x. eapply go_rule; [cbn [grammar]|].
            + eapply go_seq; [apply lit1|]. eapply go_seq; [|apply (go_lit parseFloat path stubPath ")")].
              apply (read8 e t P g2 g3 (chars ")" ++ g')); trivial; [apply closing_hd; inl|].
              apply stop0_gap; [assumption|]. intros _. cbn. right; left; reflexivity.
            + reflexivity.
          - intros w Ew. subst x.
            replace ("("%char :: g2 ++ t ++ g3 ++ [")"%char] ++ g') with (("("%char :: g2 ++ t ++ g3 ++ [")"%char]) ++ g') in Ew by apps.
            apply app_inv_tail in Ew. subst w. reflexivity. }
        replace g' with (g' ++ []) at 1 by apply app_nil_r. apply gows; [assumption|reflexivity].
      * reflexivity.
    + apply go_not. now exists 1%nat.
Qed.
End W.
