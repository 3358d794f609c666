(** The parser on merge expressions. *)
From Verif Require Import Core CoreFacts Str StrFacts DecSpec Peg PegFacts Grammar Eval Parser ParserFacts ParserRead Written ParserWords ParserClean ParserLits ParserWritten ParserAll ParserOps.
From Coq Require Import SpecFloat Lia PeanoNat.
Import ListNotations.

(** ** what a failing pattern says *)
Lemma fails_rule_inv r s : fails (PRule r) s -> fails (grammar r) s.
Proof.
  intros [f H]. destruct f as [|f]; [discriminate|]. cbn [run] in H. exists f.
  destruct (run grammar f (grammar r) (sing s)); [discriminate|reflexivity|discriminate].
Qed.
Lemma fails_alt_inv a b s : fails (PAlt a b) s -> fails a s /\ fails b s.
Proof.
  intros [f H]. destruct f as [|f]; [discriminate|]. cbn [run] in H.
  destruct (run grammar f a (sing s)) eqn:E; try discriminate. split; exists f; assumption.
Qed.
Lemma fails_seq_inv a b s : fails (PSeq a b) s -> fails a s \/ exists s', reads a s s' /\ fails b s'.
Proof.
  intros [f H]. destruct f as [|f]; [discriminate|]. cbn [run] in H.
  destruct (run grammar f a (sing s)) as [| |x t] eqn:E; [discriminate|left; now exists f|right].
  destruct (run_suffix _ _ _ _ _ E) as [w [v [Ev ->]]]. exists v. split; [now exists f, t|].
  exists f. destruct (run grammar f b (sing v)); [discriminate|reflexivity|discriminate].
Qed.
Lemma star_fails a s : ~ fails (PStar a) s.
Proof.
  intros [f H]. revert s H. induction f as [|f IH]; intros s H; [discriminate|]. cbn [run] in H.
  destruct (run grammar f a (sing s)) as [| |x t] eqn:E; [discriminate|discriminate|].
  destruct (run_suffix _ _ _ _ _ E) as [w [v [Ev ->]]].
  destruct (run grammar f (PStar a) (sing v)) eqn:E2; try discriminate. now apply (IH v).
Qed.
Lemma opt_fails a s : ~ fails (POpt a) s.
Proof.
  intros [f H]. destruct f as [|f]; [discriminate|]. cbn [run] in H. now destruct (run grammar f a (sing s)).
Qed.
Lemma fails_then a b s : fails (PSeq a (PStar b)) s -> fails a s.
Proof. intros H. apply fails_seq_inv in H. destruct H as [H|[x [_ H]]]; [assumption|]. now apply star_fails in H. Qed.
Lemma closing_reference s : closing s -> fails (PRule R_Reference) s.
Proof.
  intros [_ [F _]]. specialize (F 5%nat ltac:(cbn; tauto)). cbn [ops] in F.
  do 4 (apply fails_rule_inv in F; cbn [grammar] in F; apply fails_then in F).
  apply fails_rule_inv in F. cbn [grammar] in F. do 12 (apply fails_alt_inv, proj2 in F).
  apply fails_rule_inv in F. cbn [grammar] in F. apply fails_then in F.
  do 13 (apply fails_alt_inv, proj2 in F). now apply fails_alt_inv, proj1 in F.
Qed.
Lemma reference_word s : fails (PRule R_Reference) s -> hd_is isWord s = false.
Proof.
  intros F. apply fails_rule_inv in F. cbn [grammar] in F. apply fails_seq_inv in F.
  destruct F as [F|[x [_ F]]]; [|apply fails_rule_inv in F; now apply star_fails in F].
  apply fails_alt_inv, proj2 in F. destruct s as [|c r]; [reflexivity|]. cbn.
  destruct (isWord c) eqn:W; [exfalso|reflexivity].
  apply fails_seq_inv in F. destruct F as [F|[x [R F]]]; [now apply opt_fails in F|].
  assert (E : x = c :: r).
  { destruct R as [f [t R]]. destruct f as [|[|f]]; try discriminate. cbn [run] in R.
    assert (N : eat (chars ".") (sing (c :: r)) = None).
    { cbn. destruct (Ascii.eqb_spec c "."); [subst; discriminate|].
      unfold isChar, one. cbn. destruct (Ascii.eqb_spec "." c); [congruence|]. reflexivity. }
    rewrite N in R. injection R as R _. symmetry. now apply sing_inj. }
  subst x. apply fails_rule_inv in F. cbn [grammar] in F. apply fails_seq_inv in F. destruct F as [F|[x [_ F]]].
  - destruct F as [f F]. destruct f as [|f]; [discriminate|]. cbn in F. pose proof (set_word c) as X. cbn in X. rewrite W in X.
    cbn in F. rewrite X in F. discriminate.
  - apply fails_seq_inv in F. destruct F as [F|[y [_ F]]]; [now apply star_fails in F|now apply opt_fails in F].
Qed.

Section M.
Variable parseFloat : string -> option spec_float.
Variable path stubPath : list string.
Notation go := (go parseFloat path stubPath).
Notation raw := (ParserRead.go parseFloat path stubPath).
Notation PW := (PW parseFloat path stubPath).
Notation fullMerge := (fullMerge path stubPath).
Notation openMerge := (openMerge path stubPath).
Definition opts (r q : bool) (k : string) (st : bstate) : bstate := mkB (b_stack st) r q k (b_next st).
Ltac rd L := exact (ParserRead.go_reads parseFloat path stubPath _ _ _ start _ L).
Notation rws := (ParserWords.go_req parseFloat path stubPath).
Notation rlit := (ParserRead.go_lit parseFloat path stubPath).

(** *** the options *)
Lemma space_nil g : space g -> g <> [].
Proof. now intros [_ H]. Qed.
Lemma nb_hd (p : ascii -> bool) s : (forall c, p c = true -> blankb c = false) -> hd_is p s = true -> nb s.
Proof. intros H. destruct s as [|c s]; [discriminate|]. apply H. Qed.
Lemma word_nb c : isWord c = true -> blankb c = false.
Proof. now destruct c as [[] [] [] [] [] [] [] []]. Qed.
Lemma name_nb n s : name n -> nb (n ++ s).
Proof. intros [E F]. destruct F as [|c n H F]; [contradiction|]. now apply word_nb. Qed.
Lemma raw_name n s st : name n -> hd_is isWord s = false -> raw (PRule R_Name) (n ++ s) s st (pushI (IName (ofchars n)) st).
Proof.
  intros [E F] H. eapply ParserRead.go_rule.
  - cbn [grammar]. apply (ParserWords.go_many1 parseFloat path stubPath _ isWord); auto using set_word.
  - intros w Q. apply app_inv_tail in Q. now subst.
Qed.
Lemma raw_on g n s st : space g -> name n -> hd_is isWord s = false -> clean st ->
  raw (PRule R_On) (chars "on" ++ g ++ n ++ s) s st (opts false false (ofchars n) st).
Proof.
  intros G N H [C1 [C2 C3]]. eapply ParserRead.go_rule.
  - cbn [grammar]. eapply ParserRead.go_seq; [apply rlit|]. eapply ParserRead.go_seq; [apply rws; [assumption|now apply name_nb]|].
    now apply raw_name.
  - intros w _. unfold pushI. cbn [Parser.action b_stack b_replace b_required b_key b_next]. now rewrite C1, C2.
Qed.
Lemma raw_replace s st : clean st -> raw (PRule R_Replace) (chars "replace" ++ s) s st (opts true false "" st).
Proof.
  intros [C1 [C2 C3]]. eapply ParserRead.go_rule; [apply rlit|]. intros w _. cbn [Parser.action]. now rewrite C2, C3.
Qed.
Lemma raw_required s st : clean st -> raw (PRule R_Required) (chars "required" ++ s) s st (opts false true "" st).
Proof.
  intros [C1 [C2 C3]]. eapply ParserRead.go_rule; [apply rlit|]. intros w _. cbn [Parser.action]. now rewrite C1, C3.
Qed.
Notation optR := (POpt (@@R_req_ws ~> (@@R_Replace // @@R_On))).
Notation optS := (POpt (@@R_req_ws ~> (@@R_Replace // @@R_Required // @@R_On))).
Lemma opts_clean st : clean st -> opts false false "" st = st.
Proof. intros [C1 [C2 C3]]. destruct st as [k r q ky n]. cbn in *. now subst. Qed.
(** an option is read by both forms *)
Lemma raw_option r k u s st : mergeOption r k u -> u <> [] -> hd_is isWord s = false -> clean st ->
  raw optR (u ++ s) s st (opts r false k st) /\ raw optS (u ++ s) s st (opts r false k st).
Proof.
  intros O NE H C. destruct O as [|g G|g g' n G G' N]; [contradiction|..]; rewrite <- !app_assoc.
  - split; apply ParserRead.go_opt_some; (eapply ParserRead.go_seq; [apply rws; [assumption|reflexivity]|]);
      apply ParserRead.go_alt_l; now apply raw_replace.
  - split; apply ParserRead.go_opt_some; (eapply ParserRead.go_seq; [apply rws; [assumption|reflexivity]|]).
    + apply ParserRead.go_alt_r; [dead|]. now apply raw_on.
    + do 2 (apply ParserRead.go_alt_r; [dead|]). now apply raw_on.
Qed.
(** *** the second word *)
Lemma not_required r k u s : mergeOption r k u -> u <> [] -> fails (@@R_req_ws ~> @@R_Required) (u ++ s).
Proof.
  intros O NE. destruct O as [|g G|g g' n G G' N]; [contradiction|..]; rewrite <- !app_assoc.
  - eapply fails_seq_r; [rd (rws g (chars "replace" ++ s) start G eq_refl)|dead].
  - eapply fails_seq_r; [rd (rws g (chars "on" ++ g' ++ n ++ s) start G eq_refl)|dead].
Qed.
Lemma mergeRef_hd p t s : mergeRef p t -> nb (t ++ s).
Proof.
  intros [k ps K F _|k ps K F]; [|reflexivity]. destruct (key_cons k K) as [c [r [-> [W _]]]]. now apply word_nb.
Qed.
(** a word is at the start of a reference only if it is at the start of its text *)
Lemma mergeRef_word p t w s : mergeRef p t -> Forall (fun c => isKey c = true) w -> w <> [] -> hd_is isKey s = false ->
  startsWith w (t ++ s) -> startsWith w t.
Proof. intros _ F _ H. now apply word_key. Qed.
Lemma key_nb c : isKey c = true -> blankb c = false.
Proof. now destruct c as [[] [] [] [] [] [] [] []]. Qed.
Lemma parts_nb ps : Forall partOk ps -> Forall (fun c => blankb c = false) (List.concat (map partText ps)).
Proof.
  induction 1 as [|p ps O F IH]; [constructor|]. cbn [map List.concat]. apply Forall_app. split; [|assumption].
  destruct p as [k|dot n]; cbn [partText partOk] in *.
  - constructor; [reflexivity|]. eapply Forall_impl; [exact key_nb|now apply key_all].
  - apply Forall_app. split; [destruct dot; repeat constructor|]. unfold brackets. constructor; [reflexivity|].
    apply Forall_app. split; [eapply Forall_impl; [exact key_nb|now apply index_chars]|repeat constructor].
Qed.
Lemma mergeRef_nb p t : mergeRef p t -> Forall (fun c => blankb c = false) t.
Proof.
  intros [k ps K F _|k ps K F]; [|constructor; [reflexivity|]]; apply Forall_app; split; auto using parts_nb;
    (eapply Forall_impl; [exact key_nb|now apply key_all]).
Qed.
Lemma free_words p t u s : mergeRef p t -> optionFree u t -> u = [] -> tight s ->
  fails (PRule R_Required) (t ++ s) /\ fails (@@R_Replace // @@R_On) (t ++ s).
Proof.
  intros R O E T. destruct (O E) as [O1 [O2 O3]]. apply tight_key in T as K.
  assert (X : fails (PRule R_Required) (t ++ s)).
  { apply fails_rule. cbn [grammar]. apply fails_word. intros S. apply O2. revert S. apply (mergeRef_word p); trivial; [repeat constructor|discriminate]. }
  split; [assumption|]. apply fails_alt.
  { apply fails_rule. cbn [grammar]. apply fails_word. intros S. apply O1. revert S. apply (mergeRef_word p); trivial; [repeat constructor|discriminate]. }
  apply fails_rule. cbn [grammar].
  destruct (eat (chars "on") (sing (t ++ s))) as [x|] eqn:Ea; [|apply fails_seq_l; now apply fails_lit].
  apply eat_prefix in Ea. destruct Ea as [q [Ea _]].
  assert (S : startsWith (chars "on") t).
  { apply (mergeRef_word p t _ s); trivial; [repeat constructor|discriminate|]. now exists q. }
  destruct S as [t' ->]. eapply fails_seq_r; [rewrite <- app_assoc; apply reads_lit|]. apply fails_seq_l, fails_req.
  destruct t' as [|c t']; [now contradiction O3|]. unfold nb. cbn.
  apply mergeRef_nb in R. apply Forall_app in R. destruct R as [_ R]. now inversion R.
Qed.
(** *** merge with a reference *)
Lemma raw_RefMerge r k u g (p : list string) none t s st :
  mergeOption r k u -> space g -> nb (t ++ s) -> optionFree u t -> clean st ->
  (u = [] -> fails (PRule R_Required) (t ++ s) /\ fails (@@R_Replace // @@R_On) (t ++ s)) ->
  (forall st, raw (PRule R_Reference) (t ++ s) s st (push (ERef "" p) st)) ->
  none = (match p with [x] => String.eqb x "none" | _ => false end) -> p <> [] ->
  raw (PRule R_RefMerge) ((chars "merge" ++ u ++ g ++ t) ++ s) s st
    (push (EMerge (if none then [] else p) true r (negb none) none k) (opts r false k st)).
Proof.
  intros O G N Fr C Fw R En Ep. rewrite <- !app_assoc. eapply ParserRead.go_rule.
  - cbn [grammar]. eapply ParserRead.go_seq; [apply rlit|].
    assert (Rest : raw (@@R_req_ws ~> @@R_Reference) (g ++ t ++ s) s (opts r false k st) (push (ERef "" p) (opts r false k st))).
    { eapply ParserRead.go_seq; [now apply rws|apply R]. }
    destruct u as [|c u].
    + destruct (Fw eq_refl) as [F1 F2]. cbn [app]. eapply ParserRead.go_seq.
      { apply ParserRead.go_not. eapply fails_seq_r; [rd (rws g (t ++ s) start G N)|exact F1]. }
      eapply ParserRead.go_seq; [|exact Rest].
      assert (E : opts r false k st = st) by (inversion O; subst; [now apply opts_clean|destruct g0; discriminate|destruct g0; discriminate]).
      rewrite E. apply ParserRead.go_opt_none. eapply fails_seq_r; [rd (rws g (t ++ s) start G N)|exact F2].
    + eapply ParserRead.go_seq; [apply ParserRead.go_not, (not_required r k); [assumption|discriminate]|].
      eapply ParserRead.go_seq; [|exact Rest]. apply raw_option; trivial; [discriminate|].
      destruct G as [G NE]. destruct G as [|b g B G]; [contradiction|]. cbn. now apply blank_word.
  - intros w _. cbn. unfold push. cbn. destruct p as [|x p]; [contradiction|].
    subst none. destruct p as [|y p]; [destruct (String.eqb x "none")|]; reflexivity.
Qed.
Lemma reset_clean e r q k st : clean st -> mkB (IExpr e :: b_stack (opts r q k st)) false false "" (b_next (opts r q k st)) = push e st.
Proof. intros [C1 [C2 C3]]. unfold push. cbn. now rewrite C1, C2, C3. Qed.
Lemma go_RefMerge e r k t s st :
  (clean st -> raw (PRule R_RefMerge) (t ++ s) s st (push e (opts r false k st))) ->
  go (PRule R_Merge) (t ++ s) s st (push e st).
Proof.
  intros H C. specialize (H C). split; [|exact C]. eapply ParserRead.go_rule; [cbn [grammar]; apply ParserRead.go_alt_l; exact H|].
  intros w _. cbn [Parser.action]. f_equal. now rewrite <- (reset_clean e r false k st C).
Qed.
Lemma equals_moved : negb (equals path stubPath) = moved path stubPath.
Proof. unfold equals, moved. now destruct (list_eq_dec string_dec path stubPath). Qed.
(** *** merge without reference *)
Lemma raw_SimpleMerge r q k v s st : hd_is (fun c => Ascii.eqb c "(") (v ++ s) = false ->
  raw optS (v ++ s) s st (opts r q k st) ->
  raw (PRule R_SimpleMerge) ((chars "merge" ++ v) ++ s) s st
    (push (EMerge stubPath (moved path stubPath) r (r || q || moved path stubPath) false k) (opts r q k st)).
Proof.
  intros H R. rewrite <- app_assoc. eapply ParserRead.go_rule.
  - cbn [grammar]. eapply ParserRead.go_seq; [apply rlit|].
    eapply ParserRead.go_seq; [apply ParserRead.go_not; now apply fails_lit1|exact R].
  - intros w _. cbn [Parser.action]. rewrite equals_moved. reflexivity.
Qed.
Lemma go_SimpleMerge r q k v s st : hd_is (fun c => Ascii.eqb c "(") (v ++ s) = false ->
  fails (PRule R_RefMerge) ((chars "merge" ++ v) ++ s) ->
  (clean st -> raw optS (v ++ s) s st (opts r q k st)) ->
  go (PRule R_Merge) ((chars "merge" ++ v) ++ s) s st
    (push (EMerge stubPath (moved path stubPath) r (r || q || moved path stubPath) false k) st).
Proof.
  intros H F R C. split; [|exact C]. eapply ParserRead.go_rule.
  - cbn [grammar]. apply ParserRead.go_alt_r; [exact F|]. apply raw_SimpleMerge; [exact H|now apply R].
  - intros w _. cbn [Parser.action]. f_equal. now rewrite <- (reset_clean _ r q k st C).
Qed.
Lemma level0_merge e t s st : go (PRule R_Merge) ((chars "merge" ++ t) ++ s) s st (push e st) ->
  go (PRule R_Level0) ((chars "merge" ++ t) ++ s) s st (push e st).
Proof.
  intros G. eapply go_rule0; [|intros ?; now destruct st]. cbn [grammar].
  rewrite <- app_assoc in G |- *. do 9 (apply go_alt_r; [dead|]). apply go_alt_l. exact G.
Qed.
Lemma space_paren g s : space g -> hd_is (fun c => Ascii.eqb c "(") (g ++ s) = false.
Proof.
  intros [G NE]. destruct G as [|c g B G]; [contradiction|]. cbn. destruct (Ascii.eqb_spec c "("); [|reflexivity].
  subst. apply blankb_spec in B. discriminate.
Qed.
Lemma front_merge t : (forall s, fol s -> fol (t ++ s)) -> front (chars "merge" ++ t).
Proof. intros H. apply (front_word parseFloat path stubPath "m" ["e"; "r"; "g"; "e"]%char); [reflexivity|discriminate|repeat constructor|exact H]. Qed.
Lemma fol_word g w s : space g -> hd_is isKey w = true -> fol (g ++ w ++ s).
Proof.
  intros G H. destruct w as [|c w]; [discriminate|]. cbn in H. apply fol_gap; [apply G|now apply key_nb|right; apply G|].
  cbn. destruct (Ascii.eqb_spec c "="); [subst; discriminate|reflexivity].
Qed.
Lemma fol_option r k u : mergeOption r k u -> forall s, fol s -> fol (u ++ s).
Proof.
  intros O s F. destruct O as [|g G|g g' n G G' N]; [assumption|..]; rewrite <- !app_assoc; now apply fol_word.
Qed.
Lemma fol_space g t s : space g -> nb (t ++ s) -> eqok (t ++ s) = true -> fol (g ++ t ++ s).
Proof. intros [G NE] N E. apply fol_gap; auto. Qed.
Lemma mergeRef_eq p t s : mergeRef p t -> eqok (t ++ s) = true.
Proof.
  intros [k ps K F _|k ps K F]; [|reflexivity]. destruct (key_cons k K) as [c [r [-> [W _]]]]. cbn.
  destruct (Ascii.eqb_spec c "="); [subst; discriminate|reflexivity].
Qed.
Lemma PW_fullMerge e t : fullMerge e t -> PW false 0 e t.
Proof.
  intros [g G|r k u g p t' O G R Fr|r k u g O G].
  - apply PW0; [apply front_merge; intros s _; rewrite <- app_assoc; now apply fol_word|]. intros s st S.
    apply level0_merge. pose proof (go_SimpleMerge false true "" (g ++ chars "required") s st) as X. cbn [orb] in X. apply X; rewrite <- ?app_assoc.
    + now apply space_paren.
    + apply fails_rule. cbn [grammar]. eapply fails_seq_r; [apply reads_lit|]. apply fails_seq_l.
      apply (fails_not _ _ s). eapply reads_seq; [rd (rws g (chars "required" ++ s) start G eq_refl)|].
      apply reads_rule. cbn [grammar]. apply reads_lit.
    + intros C. apply ParserRead.go_opt_some. eapply ParserRead.go_seq; [apply rws; [assumption|reflexivity]|].
      apply ParserRead.go_alt_r; [dead|]. apply ParserRead.go_alt_l. now apply raw_required.
  - apply PW0.
    { apply front_merge. intros s _. rewrite <- !app_assoc. apply (fol_option r k); trivial.
      apply fol_space; [assumption|now apply (mergeRef_hd p)|now apply (mergeRef_eq p)]. }
    intros s st S. apply level0_merge. apply (go_RefMerge _ r k). intros C.
    set (none := match p with [x] => String.eqb x "none" | _ => false end).
    assert (En : none = false).
    { subst none. destruct R as [q ps K F NN|q ps K F]; [|reflexivity]. destruct ps as [|y ps]; [|reflexivity].
      cbn. apply String.eqb_neq. intros E. apply NN. split; [|reflexivity]. rewrite <- (chars_of q), E. reflexivity. }
    pose proof (raw_RefMerge r k u g p none t' s st O G) as X. rewrite En in X. apply X; clear X.
    + now apply (mergeRef_hd p).
    + assumption.
    + assumption.
    + intros E. apply (free_words p t' u); trivial. now apply stop0_tight.
    + intros x. destruct R as [q ps K F NN|q ps K F].
      * apply ParserWords.go_Reference; auto. now apply stop0_ref.
      * apply ParserWords.go_RootReference; auto. now apply stop0_ref.
    + symmetry. exact En.
    + destruct R; discriminate.
  - apply PW0.
    { apply front_merge. intros s _. rewrite <- !app_assoc. apply (fol_option r k); trivial. now apply fol_word. }
    intros s st S. apply level0_merge. apply (go_RefMerge _ r k). intros C.
    apply (raw_RefMerge r k u g ["none"%string] true (chars "none") s st); trivial; try reflexivity; try discriminate.
    + intros _. repeat split; try discriminate; intros [x E]; discriminate.
    + intros _. split; [dead|]. apply fails_alt; dead.
    + intros x. apply (ParserWords.go_Reference parseFloat path stubPath (chars "none") [] s x); auto.
      * split; [reflexivity|repeat constructor].
      * now apply stop0_ref.
Qed.
(** *** open forms *)
Lemma go_openMerge e t g s1 st : openMerge e t -> gap g -> nb s1 -> fails (PRule R_Reference) s1 -> stop0 (g ++ s1) ->
  go (PRule R_Level0) (t ++ g ++ s1) (g ++ s1) st (push e st).
Proof.
  intros [r k u O] G N F S. apply level0_merge. pose proof (reference_word s1 F) as W.
  assert (Ws : hd_is isWord (g ++ s1) = false) by (now apply hd_word, stop0_key).
  assert (NP : hd_is (fun c => Ascii.eqb c "(") (g ++ s1) = false).
  { destruct (gap_split g G) as [->|Sp]; [|now apply space_paren]. destruct s1 as [|c s1]; [reflexivity|]. cbn in S |- *.
    destruct (Ascii.eqb_spec c "("); [|reflexivity]. subst. destruct S as [S|[S|[[S _]|[S _]]]]; discriminate. }
  assert (NW : forall w, hd_is isWord (chars w) = true -> fails (PLit w) s1).
  { intros w Hw. apply fails_word. intros [x E]. destruct (chars w) as [|c l]; [discriminate|]. subst s1. cbn in W, Hw. congruence. }
  assert (Rep : fails (PRule R_Replace) s1) by (apply fails_rule; cbn [grammar]; now apply NW).
  assert (Req : fails (PRule R_Required) s1) by (apply fails_rule; cbn [grammar]; now apply NW).
  assert (On : fails (PRule R_On) s1) by (apply fails_rule; cbn [grammar]; apply fails_seq_l; now apply NW).
  assert (NR : forall p, fails p s1 -> fails (@@R_req_ws ~> p) (g ++ s1)).
  { intros p Fp. destruct (gap_split g G) as [->|Sp]; [apply fails_seq_l; now apply fails_req|].
    eapply fails_seq_r; [rd (rws g s1 start Sp N)|exact Fp]. }
  pose proof (go_SimpleMerge r false k u (g ++ s1) st) as X. rewrite orb_false_r in X. apply X; clear X.
  - destruct O as [|h H|h h' n H H' Nn]; [assumption|..]; rewrite <- !app_assoc; now apply space_paren.
  - rewrite <- app_assoc. apply fails_rule. cbn [grammar]. eapply fails_seq_r; [apply reads_lit|].
    destruct u as [|c u].
    + cbn [app]. eapply fails_seq_r; [apply reads_not, NR, Req|].
      eapply fails_seq_r; [apply reads_opt_none, NR; now apply fails_alt|]. now apply NR.
    + eapply fails_seq_r; [apply reads_not, (not_required r k); [assumption|discriminate]|].
      eapply fails_seq_r; [|apply NR, F].
      destruct (raw_option r k (c :: u) (g ++ s1) start O ltac:(discriminate) Ws (clean_start)) as [Y _]. rd Y.
  - intros C. destruct u as [|c u]; [|now apply raw_option].
    assert (E : opts r false k st = st) by (inversion O; subst; [now apply opts_clean|destruct g0; discriminate|destruct g0; discriminate]).
    rewrite E. cbn [app]. apply ParserRead.go_opt_none, NR. apply fails_alt; [assumption|now apply fails_alt].
Qed.
Lemma openMerge_front e t : openMerge e t -> front t.
Proof. intros [r k u O]. apply front_merge. now apply (fol_option r k). Qed.
Lemma PW_openMerge e t : openMerge e t -> PW true 0 e t.
Proof.
  intros O. pose proof (openMerge_front e t O) as F. split; [apply F|]. split; [trivial|].
  intros g0 g s1 L G K S. rewrite (lead_nil _ _ L) by lia. cbn [app]. exists (g ++ s1). split; [right; split; [lia|reflexivity]|].
  intros st. apply go_openMerge; trivial; [apply K|now apply closing_reference].
Qed.
Lemma PW_mergeor o op k e t g g' b tb : openMerge e t -> binop 7 op k -> space g -> space g' -> PW o 6 b tb ->
  PW o 7 (k e b) (t ++ g ++ chars op ++ g' ++ tb).
Proof.
  intros O B G G' Pb. pose proof (openMerge_front e t O) as F. apply PW_left; trivial.
  intros g0 x s' st st' [G0 _] L.
  apply (climb parseFloat path stubPath e); trivial; [apply F| |].
  - intros y. apply go_openMerge; trivial; [apply G|..].
    + inversion B; subst; reflexivity.
    + inversion B; subst; dead.
    + now apply space_stop0.
  - apply (op_stops parseFloat path stubPath 7); trivial. now apply (binop_opc 7 op k).
Qed.
End M.
