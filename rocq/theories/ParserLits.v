(** The parser on literals and on the beginning of operands. *)
From Verif Require Import Core CoreFacts Str StrFacts DecSpec Peg PegFacts Grammar Eval Parser ParserFacts ParserRead Written ParserWords ParserClean.
From Coq Require Import SpecFloat Lia PeanoNat.
Import ListNotations.

Section L.
Variable parseFloat : string -> option spec_float.
Variable path stubPath : list string.
Notation go := (go parseFloat path stubPath).
Notation read1 := (go_reads parseFloat path stubPath _ _ _ _).

(** ** what may follow a complete operand *)
Definition stop0 (s : text) : Prop :=
  match s with
  | [] => True
  | c :: r => blankb c = true \/ isOne [")"; "]"; "}"; ","; "="; "|"; "?"]%char c = true \/
              (c = ":"%char /\ hd_is (fun c => negb (blankb c)) r = false) \/
              (c = "."%char /\ hd_is (isOne ["."]%char) r = true)
  end.
Lemma stop0_tight s : stop0 s -> tight s.
Proof.
  destruct s as [|c r]; [trivial|]. cbn. intros [H|[H|[H|[-> H]]]]; auto.
  - right; left. destruct c as [[] [] [] [] [] [] [] []]; try discriminate H; reflexivity.
  - right; right; right. split; [reflexivity|]. destruct r as [|d r]; [discriminate|]. cbn in *.
    destruct (Ascii.eqb d "."); [reflexivity|discriminate].
Qed.
(** all cases of the first character(s) *)
Lemma stop0_cases (P : text -> Prop) : P [] ->
  (forall c r, In c [" "; "009"; "010"; "013"; ")"; "]"; "}"; ","; "="; "|"; "?"]%char -> P (c :: r)) ->
  P [":"%char] -> (forall c r, In c [" "; "009"; "010"; "013"]%char -> P (":"%char :: c :: r)) ->
  (forall r, P ("."%char :: "."%char :: r)) -> forall s, stop0 s -> P s.
Proof.
  intros H0 H1 H2 H3 H4 [|c r] H; [assumption|]. cbn in H. destruct H as [H|[H|[[-> H]|[-> H]]]].
  - apply H1. apply blankb_spec in H. unfold blank in H. cbn in H |- *. tauto.
  - apply H1. destruct c as [[] [] [] [] [] [] [] []]; try discriminate H; cbn; tauto.
  - destruct r as [|d r]; [assumption|]. cbn in H. apply negb_false_iff in H. apply H3. now apply blankb_spec.
  - destruct r as [|d r]; [discriminate|]. cbn in H. rewrite orb_false_r in H. apply Ascii.eqb_eq in H. subst. apply H4.
Qed.
Ltac heads := repeat match goal with H : In _ _ |- _ => cbn in H; repeat destruct H as [<-|H]; try contradiction H end.
Lemma stop0_chain s : stop0 s -> fails (PRule R_ChainedQualifiedExpression) s.
Proof. revert s. apply stop0_cases; intros; heads; dead. Qed.
Lemma stop0_path s : stop0 s -> fails (PRule R_PathComponent) s.
Proof. revert s. apply stop0_cases; intros; heads; dead. Qed.
Lemma stop0_ref s : stop0 s -> refstop s.
Proof. intros H. split; auto using stop0_tight, stop0_path. Qed.
Lemma stop0_key s : stop0 s -> hd_is isKey s = false.
Proof. intros H. now apply tight_key, stop0_tight. Qed.
Lemma hd_word s : hd_is isKey s = false -> hd_is isWord s = false.
Proof. destruct s as [|c r]; [trivial|]. cbn. unfold isKey. now destruct (isWord c). Qed.

(** ** names *)
Definition pushI (i : item) (st : bstate) : bstate :=
  mkB (i :: b_stack st) (b_replace st) (b_required st) (b_key st) (b_next st).
Lemma go_Name n s st : name n -> hd_is isWord s = false -> go (PRule R_Name) (n ++ s) s st (pushI (IName (ofchars n)) st).
Proof.
  intros [E F] H. eapply go_rule.
  - cbn [grammar]. apply (go_many1 parseFloat path stubPath _ isWord); auto using set_word.
  - intros w Q. apply app_inv_tail in Q. now subst.
Qed.

(** ** the beginning of a reference *)
Lemma ref_first r k s : In r [R_IP; R_String; R_Number; R_Undefined; R_Symbol; R_Not; R_Substitution; R_List; R_Map; R_Range; R_Grouped] ->
  plainName k -> fails (PRule r) (k ++ s).
Proof.
  intros I [K [N _]]. destruct (key_cons k K) as [c [t [-> [W _]]]]. cbn in N. cbn [app].
  cbn in I. repeat destruct I as [<-|I]; try contradiction I;
    destruct c as [[] [] [] [] [] [] [] []]; try discriminate W; try discriminate N; dead.
Qed.
Lemma ref_word w k s : In w ["nil"; "true"; "false"; "merge"; "auto"; "lambda"]%string ->
  plainName k -> hd_is isKey s = false -> fails (PLit w) (k ++ s).
Proof.
  intros I [K [_ [F _]]] H. apply fails_word. intros S. rewrite Forall_forall in F. apply (F w I).
  apply (word_key (chars w) k s); [|assumption|assumption].
  cbn in I. repeat destruct I as [<-|I]; try contradiction I; repeat constructor.
Qed.
Lemma ref_open w d k s : In w ["map"; "filter"; "select"; "sum"; "catch"; "sync"]%string -> isKey d = false ->
  plainName k -> hd_is isKey s = false -> fails (PLit (w +++ String d "")%string) (k ++ s).
Proof.
  intros I D [K [_ [_ F]]] H. apply fails_word. intros S. rewrite Forall_forall in F. apply (F w).
  - cbn in I |- *. tauto.
  - apply (word_open (chars w) d k s); try assumption.
    + cbn in I. repeat destruct I as [<-|I]; try contradiction I; repeat constructor.
    + now apply key_all.
    + cbn in I. repeat destruct I as [<-|I]; try contradiction I; exact S.
Qed.
Ltac inl := cbn; tauto.
Lemma ref_lits r k s : In r [R_IP; R_String; R_Number; R_Boolean; R_Undefined; R_Nil; R_Symbol; R_Not; R_Substitution; R_Merge; R_Auto; R_Lambda] ->
  plainName k -> hd_is isKey s = false -> fails (PRule r) (k ++ s).
Proof.
  intros I P H. cbn in I. repeat destruct I as [<-|I]; try contradiction I;
    try (apply ref_first; [inl|assumption]).
  - apply fails_rule, fails_alt; apply ref_word; trivial; inl.
  - apply fails_rule, fails_alt; [apply ref_word; trivial; inl|].
    destruct P as [K [N _]]. destruct (key_cons k K) as [c [t [-> [W _]]]]. apply fails_lit1. cbn.
    destruct (Ascii.eqb_spec c "~"); [subst; discriminate|reflexivity].
  - apply fails_rule, fails_alt; apply fails_rule, fails_seq_l; apply ref_word; trivial; inl.
  - apply fails_rule. cbn [grammar]. apply ref_word; trivial; inl.
  - apply fails_rule, fails_seq_l. apply ref_word; trivial; inl.
Qed.
Lemma ref_aggs r k s : In r [R_MapMapping; R_Sync; R_Catch; R_Mapping; R_FilterList; R_FilterMap; R_MapSelection; R_Selection; R_Sum; R_List; R_Map; R_Range; R_Grouped] ->
  plainName k -> hd_is isKey s = false -> fails (PRule r) (k ++ s).
Proof.
  intros I P H. cbn in I. repeat destruct I as [<-|I]; try contradiction I;
    try (apply ref_first; [inl|assumption]); apply fails_rule, fails_seq_l.
  - apply (ref_open "map" "{"); trivial; inl.
  - apply (ref_open "sync" "["); trivial; inl.
  - apply (ref_open "catch" "["); trivial; inl.
  - apply (ref_open "map" "["); trivial; inl.
  - apply (ref_open "filter" "["); trivial; inl.
  - apply (ref_open "filter" "{"); trivial; inl.
  - apply (ref_open "select" "{"); trivial; inl.
  - apply (ref_open "select" "["); trivial; inl.
  - apply (ref_open "sum" "["); trivial; inl.
Qed.

(** ** operands that are not literals *)
Definition lits : list rule := [R_IP; R_String; R_Number; R_Boolean; R_Undefined; R_Nil; R_Symbol; R_Not; R_Substitution; R_Merge; R_Auto; R_Lambda].
Definition nolit (s : text) : Prop := forall r, In r lits -> fails (PRule r) s.
Lemma go_chained s s' st st' : nolit s -> go (PRule R_Chained) s s' st st' -> go (PRule R_Level0) s s' st st'.
Proof.
  intros N G. eapply go_rule0; [|intros ?; now destruct st'].
  cbn [grammar]. repeat (apply go_alt_r; [apply N; inl|]). exact G.
Qed.
Definition base : peg rule := (@@R_MapMapping // @@R_Sync // @@R_Catch // @@R_Mapping // @@R_FilterList // @@R_FilterMap // @@R_MapSelection // @@R_Selection // @@R_Sum // @@R_List // @@R_Map // @@R_Range // @@R_Grouped // @@R_Reference // @@R_TopIndex).
Notation chain := (PStar (PRule R_ChainedQualifiedExpression)).
(** an operand is read up to [s], and the chain is continued there *)
Definition starts (t s : text) (e : expr) : Prop :=
  nolit (t ++ s) /\ forall st, exists st1, go base (t ++ s) s st st1 /\ st1 = push e st.
Lemma go_base s s1 s' st st1 st' : nolit s -> go base s s1 st st1 -> go chain s1 s' st1 st' -> go (PRule R_Level0) s s' st st'.
Proof.
  intros N B C. apply go_chained; [assumption|]. eapply go_rule0; [|intros ?; now destruct st'].
  cbn [grammar]. eapply go_seq; [exact B|exact C].
Qed.
Lemma nolit_hd c r : In c ["("; "["; "{"; "."]%char -> nolit (c :: r).
Proof. intros I q Q. heads; dead. Qed.

(** ** literals *)
Ltac alts := repeat (apply go_alt_r; [solve [dead]|]).
Ltac lit0 := eapply go_rule0; [|intros ?; now match goal with |- context [push _ ?st] => destruct st end]; cbn [grammar].
Lemma go_true s st : stop0 s -> go (PRule R_Level0) (chars "true" ++ s) s st (push (EBool true) st).
Proof.
  intros _. eapply go_rule0; [|intros ?; now destruct st]. cbn [grammar]. do 3 (apply go_alt_r; [dead|]). apply go_alt_l.
  eapply go_rule; [apply go_alt_l, go_lit|]. intros w E. apply app_inv_tail in E. now subst.
Qed.
Lemma go_false s st : stop0 s -> go (PRule R_Level0) (chars "false" ++ s) s st (push (EBool false) st).
Proof.
  intros _. eapply go_rule0; [|intros ?; now destruct st]. cbn [grammar]. do 3 (apply go_alt_r; [dead|]). apply go_alt_l.
  eapply go_rule; [apply go_alt_r; [dead|apply go_lit]|]. intros w E. apply app_inv_tail in E. now subst.
Qed.
Lemma go_nil s st : stop0 s -> go (PRule R_Level0) (chars "nil" ++ s) s st (push ENil st).
Proof.
  intros _. eapply go_rule0; [|intros ?; now destruct st]. cbn [grammar]. do 5 (apply go_alt_r; [dead|]). apply go_alt_l.
  eapply go_rule; [apply go_alt_l, go_lit|]. intros w E. reflexivity.
Qed.
Lemma go_tilde s st : stop0 s -> go (PRule R_Level0) (chars "~" ++ s) s st (push ENil st).
Proof.
  intros H. eapply go_rule0; [|intros ?; now destruct st]. cbn [grammar]. do 4 (apply go_alt_r; [dead|]).
  apply go_alt_r.
  { apply fails_rule. cbn [grammar]. apply fails_word. intros [r E]. cbn in E. inversion E; subst. cbn in H.
    destruct H as [H|[H|[[H _]|[H _]]]]; discriminate. }
  apply go_alt_l. eapply go_rule; [apply go_alt_r; [dead|apply go_lit]|]. intros w E. reflexivity.
Qed.
Lemma go_undef s st : stop0 s -> go (PRule R_Level0) (chars "~~" ++ s) s st (push EUndef st).
Proof.
  intros _. eapply go_rule0; [|intros ?; now destruct st]. cbn [grammar]. do 4 (apply go_alt_r; [dead|]). apply go_alt_l.
  eapply go_rule; [apply go_lit|]. intros w E. reflexivity.
Qed.
Lemma go_symbol n s st : name n -> stop0 s -> go (PRule R_Level0) (("$"%char :: n) ++ s) s st (push (EStr (ofchars n)) st).
Proof.
  intros N H. eapply go_rule0; [|intros ?; now destruct st]. cbn [grammar app]. do 6 (apply go_alt_r; [dead|]). apply go_alt_l.
  eapply go_rule; [eapply go_seq; [apply (go_lit1 parseFloat path stubPath "$")|apply go_Name; [assumption|now apply hd_word, stop0_key]]|].
  intros w E. reflexivity.
Qed.

(** ** integers *)
Lemma isNum_digit c : isNum c = isDigit c.
Proof. reflexivity. Qed.
Lemma digits_of s z : decimal s z -> chars s <> [] /\ Forall (fun c => isNum c = true) (chars s).
Proof.
  induction 1 as [c d D|s z c d H [N F] D].
  - split; [discriminate|]. repeat constructor. apply digit_spec in D. now rewrite isNum_digit.
  - unfold chars in *. assert (E : list_ascii_of_string (s +++ String c "") = list_ascii_of_string s ++ [c]).
    { clear. induction s as [|x s IH]; [reflexivity|]. cbn. f_equal. exact IH. }
    rewrite E. split; [now destruct (list_ascii_of_string s)|]. apply Forall_app. split; [assumption|].
    repeat constructor. apply digit_spec in D. now rewrite isNum_digit.
Qed.
Lemma num_notstop s : stop0 s -> hd_is isNum s = false /\ hd_is (fun c => isNum c || Ascii.eqb c "_") s = false /\
  fails (PSeq (PLit ".") (PSeq (PSet [("0"%char, "9"%char)]) (PStar (PSet [("0"%char, "9"%char)])))) s /\
  fails (PSeq (PSet [("e"%char, "e"%char); ("E"%char, "E"%char)]) (PSeq (POpt (PLit "-")) (PSeq (PSet [("0"%char, "9"%char)]) (PStar (PSet [("0"%char, "9"%char)]))))) s /\
  fails (PLit "::") s /\ fails (PSeq (PLit ".") (PSeq (PPlus (PSet [("0"%char, "9"%char)])) (PSeq (PLit ".") (PSeq (PPlus (PSet [("0"%char, "9"%char)])) (PSeq (PLit ".") (PPlus (PSet [("0"%char, "9"%char)]))))))) s.
Proof.
  revert s. apply stop0_cases; intros; heads; (split; [reflexivity|split; [reflexivity|split; [dead|split; [dead|split; dead]]]]).
Qed.
Lemma number_int l z : (exists s, l = chars s /\ literal s z) -> in64 z -> number parseFloat (ofchars l) = Some (EInt z).
Proof.
  intros [s [-> L]] R. unfold number. rewrite chars_of.
  assert (F : Forall (fun c => isNum c = true \/ c = "-"%char) (chars s)).
  { destruct L as [D|[r [y [-> [D _]]]]].
    - eapply Forall_impl; [|apply (digits_of s z D)]. intros; now left.
    - constructor; [now right|]. eapply Forall_impl; [|apply (digits_of r y D)]. intros; now left. }
  assert (E1 : filter (fun c => negb (Ascii.eqb c "_")) (chars s) = chars s).
  { revert F. induction (chars s) as [|c l IH]; intros F; [reflexivity|]. inversion F as [|? ? H F']; subst. cbn.
    rewrite IH by assumption. destruct H as [H| ->]; [|reflexivity].
    destruct (Ascii.eqb_spec c "_"); [subst; discriminate|reflexivity]. }
  assert (E2 : existsb (fun c => Ascii.eqb c "." || Ascii.eqb c "e" || Ascii.eqb c "E") (chars s) = false).
  { clear E1. revert F. induction (chars s) as [|c l IH]; intros F; [reflexivity|]. inversion F as [|? ? H F']; subst. cbn.
    rewrite IH by assumption. destruct H as [H| ->]; [|reflexivity].
    now destruct c as [[] [] [] [] [] [] [] []]. }
  rewrite E1, E2. unfold chars, ofchars. rewrite string_of_list_ascii_of_string.
  assert (P : parseInt s = Some z); [|now rewrite P].
  assert (B : in64b z = true) by (unfold in64b; destruct R; apply andb_true_iff; split; now apply Z.leb_le).
  unfold parseInt. destruct L as [D|[r [y [-> [D ->]]]]].
  - destruct (decimal_head _ _ D) as [c [d [r [-> Dg]]]]. apply parseNat_decimal in D.
    inversion Dg; subst; rewrite D, B; reflexivity.
  - apply parseNat_decimal in D. rewrite D. cbn [option_map]. now rewrite B.
Qed.
Lemma go_Number_digits ds s st : ds <> [] -> Forall (fun c => isNum c = true) ds -> stop0 s ->
  go (PSeq (PSet [("0"%char, "9"%char)]) (PSeq (PStar (PSet [("0"%char, "9"%char); ("_"%char, "_"%char)]))
     (PSeq (POpt ((PLit ".") ~> (PSet [("0"%char, "9"%char)]) ~> (PStar (PSet [("0"%char, "9"%char)]))))
     (PSeq (POpt ((PSet [("e"%char, "e"%char); ("E"%char, "E"%char)]) ~> (POpt (PLit "-")) ~> (PSet [("0"%char, "9"%char)]) ~> (PStar (PSet [("0"%char, "9"%char)]))))
      (PNot (PLit "::")))))) (ds ++ s) s st st.
Proof.
  intros N F H. destruct (num_notstop s H) as [H1 [H2 [H3 [H4 [H5 _]]]]].
  destruct F as [|c ds C F]; [contradiction|]. cbn [app].
  eapply go_seq; [apply go_set; now rewrite set_num|].
  eapply go_seq; [apply (go_many parseFloat path stubPath _ (fun c => isNum c || Ascii.eqb c "_")); [apply set_num_| |exact H2]|].
  { eapply Forall_impl; [|exact F]. intros a A. now rewrite A. }
  eapply go_seq; [now apply go_opt_none|]. eapply go_seq; [now apply go_opt_none|]. now apply go_not.
Qed.
Lemma go_int l z s st : literal l z -> in64 z -> stop0 s -> go (PRule R_Level0) (chars l ++ s) s st (push (EInt z) st).
Proof.
  intros L R H. destruct (num_notstop s H) as [H1 [_ [_ [_ [_ H6]]]]].
  assert (G : forall neg ds, In neg [[]; ["-"%char]] -> ds <> [] -> Forall (fun c => isNum c = true) ds ->
     chars l = neg ++ ds -> go (PRule R_Level0) (chars l ++ s) s st (push (EInt z) st)).
  { intros neg ds I N F E.
    assert (X : go (PRule R_Number) (chars l ++ s) s st (push (EInt z) st)).
    { eapply go_rule; [cbn [grammar]; rewrite E; instantiate (1 := st)|].
      - rewrite <- app_assoc. destruct I as [<-|[<-|[]]]; cbn [app].
        + eapply go_seq; [apply go_opt_none, fails_lit1|now apply go_Number_digits].
          destruct F as [|c ds C F]; [contradiction|]. cbn. destruct (Ascii.eqb_spec c "-"); [subst; discriminate|reflexivity].
        + eapply go_seq; [apply go_opt_some, go_lit1|now apply go_Number_digits].
      - intros w W. apply app_inv_tail in W. subst w. cbn [action].
        rewrite (number_int _ z); [reflexivity|now exists l|assumption]. }
    eapply go_rule0; [|intros ?; now destruct st]. cbn [grammar].
    apply go_alt_r; [|apply go_alt_r; [|apply go_alt_l; exact X]].
    - rewrite E. apply fails_rule. cbn [grammar]. destruct I as [<-|[<-|[]]]; cbn [app].
      + eapply fails_seq_r; [|exact H6]. eapply go_reads.
        apply (go_many1 parseFloat path stubPath _ isNum _ _ start); auto using set_num.
      + apply fails_seq_l, fails_plus. now apply fails_set.
    - rewrite E. apply fails_rule, fails_seq_l, fails_word. intros [q Q].
      destruct I as [<-|[<-|[]]]; [|discriminate]. cbn in Q. destruct F as [|c ds C F]; [contradiction|].
      inversion Q; subst. discriminate. }
  destruct L as [D|[r [y [-> [D ->]]]]].
  - destruct (digits_of _ _ D) as [N F]. apply (G [] (chars l)); trivial. now left.
  - destruct (digits_of _ _ D) as [N F]. apply (G ["-"%char] (chars r)); trivial. right; now left.
Qed.

(** ** strings *)
Notation strbody := ((PLit (ofchars ["\"%char; "034"%char])) // ((PNot (PLit (ofchars ["034"%char]))) ~> PAny)).
Lemma go_strchar c s st : c <> "034"%char -> (c = "\"%char -> hd_is (fun d => Ascii.eqb d "034") s = false) ->
  go strbody (c :: s) s st st.
Proof.
  intros N B. apply go_alt_r.
  - apply fails_word. intros [r E]. cbn in E. inversion E; subst. specialize (B eq_refl). cbn in B. discriminate.
  - eapply go_seq; [apply go_not|apply go_any]. apply (fails_lit1 "034"). cbn.
    destruct (Ascii.eqb_spec c "034"); [contradiction|reflexivity].
Qed.
Lemma escape_x c x : escape c = Some x -> In x ["034"; "/"; "b"; "f"; "n"; "r"; "t"]%char.
Proof.
  unfold escape. intros H. repeat match type of H with (if ?b then _ else _) = _ => destruct b end;
    inversion H; subst; cbn; tauto.
Qed.
Lemma go_strtext s0 t : quoted s0 t -> forall s st, go (PStar strbody) (t ++ "034"%char :: s) ("034"%char :: s) st st.
Proof.
  induction 1 as [|c s0 t R N1 N2 Q IH|c x s0 t E Q IH|s0 d t D Q IH]; intros s st; cbn [app].
  - apply go_star_nil. apply fails_alt; [dead|]. apply fails_seq_l. eapply fails_not. exact (reads_lit (ofchars ["034"%char]) s).
  - eapply go_star_cons; [|apply IH]. now apply go_strchar.
  - pose proof (escape_x c x E) as X. destruct (Ascii.eqb_spec x "034") as [->|Nx].
    + eapply go_star_cons; [apply go_alt_l; apply (go_lit _ _ _ (ofchars ["\"; "034"]%char))|apply IH].
    + eapply go_star_cons; [apply go_strchar; [discriminate|intros _; cbn; now destruct (Ascii.eqb_spec x "034")]|].
      eapply go_star_cons; [apply go_strchar; [assumption|]|apply IH].
      intros ->. cbn in X. repeat destruct X as [X|X]; try discriminate X. contradiction.
  - eapply go_star_cons; [apply go_strchar; [discriminate|reflexivity]|].
    eapply go_star_cons; [apply go_strchar; [discriminate|]|apply IH].
    intros _. cbn. now destruct (Ascii.eqb_spec d "034").
Qed.
Lemma unquote_ok s t : quoted s t -> unquoteR (sing (t ++ ["034"%char])) = Some (ofchars s).
Proof.
  induction 1 as [|c s t R N1 N2 Q IH|c x s t E Q IH|s d t D Q IH]; [reflexivity|..].
  - cbn [app sing map unquoteR].
    assert (X : isQ (one c) = false /\ isBS (one c) = false /\ isCtl (one c) = false).
    { unfold isQ, isBS, isChar, one. repeat split.
      - destruct (String.eqb_spec (String c "") (String "034" "")) as [X|]; [now inversion X|reflexivity].
      - destruct (String.eqb_spec (String c "") (String "\" "")) as [X|]; [now inversion X|reflexivity].
      - cbn. apply Z.ltb_ge. lia. }
    destruct X as [-> [-> ->]]. change (map one (t ++ ["034"%char])) with (sing (t ++ ["034"%char])). rewrite IH. reflexivity.
  - unfold escape in E. 
    repeat match type of E with (if Ascii.eqb c ?d then _ else _) = _ =>
      destruct (Ascii.eqb_spec c d) as [->|_]; [inversion E; subst; cbn in IH |- *; unfold sing in IH; rewrite IH; reflexivity|] end.
    discriminate.
  - cbn [app sing map] in IH |- *. cbn [unquoteR]. cbn [unquoteR] in IH.
    change (isQ (one "\")) with false. change (isBS (one "\")) with true. change (isChar "u" (one "\")) with false.
    change (esc1 (one "\")) with (Some (one "\")). cbv iota.
    rewrite IH. reflexivity.
Qed.
Lemma quoted_ascii s t : quoted s t -> Forall isAscii t.
Proof.
  induction 1 as [|c s t R N1 N2 Q IH|c x s t E Q IH|s d t D Q IH]; [constructor|..].
  - constructor; [unfold isAscii; lia|assumption].
  - constructor; [reflexivity|]. constructor; [|assumption]. apply escape_x in E. cbn in E.
    repeat destruct E as [<-|E]; try contradiction E; reflexivity.
  - constructor; [reflexivity|]. now constructor.
Qed.
Lemma go_string s0 t s st : quoted s0 t -> go (PRule R_Level0) (("034"%char :: t ++ ["034"%char]) ++ s) s st (push (EStr (ofchars s0)) st).
Proof.
  intros Q. eapply go_rule0; [|intros ?; now destruct st]. cbn [grammar]. apply go_alt_r; [dead|]. apply go_alt_l.
  eapply go_rule.
  - cbn [grammar app]. eapply go_seq; [apply (go_lit1 parseFloat path stubPath "034")|].
    rewrite <- app_assoc. cbn [app]. eapply go_seq; [now apply (go_strtext s0)|]. apply (go_lit1 parseFloat path stubPath "034").
  - intros w E. apply app_inv_tail in E. subst w. cbn [action]. unfold parseString.
    assert (A : Forall isAscii ("034"%char :: t ++ ["034"%char])).
    { constructor; [reflexivity|]. apply Forall_app. split; [now apply (quoted_ascii s0)|repeat constructor]. }
    rewrite runes_ascii by assumption. cbn [sing map]. change (isQ (one "034")) with true. cbv iota.
    change (map one (t ++ ["034"%char])) with (sing (t ++ ["034"%char])). rewrite (unquote_ok _ _ Q). reflexivity.
Qed.
End L.
