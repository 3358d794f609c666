(** The parser on blanks, names, keys, references, numbers and strings. *)
From Verif Require Import Core Str StrFacts DecSpec Peg PegFacts Grammar Eval Parser ParserFacts ParserRead Written.
From Coq Require Import SpecFloat Lia PeanoNat.
Import ListNotations.

Ltac dead := first [exists 40%nat; vm_compute; reflexivity | exists 80%nat; vm_compute; reflexivity].
(** ** character classes *)
Definition blankb (c : ascii) : bool :=
  Ascii.eqb c " " || Ascii.eqb c "009" || Ascii.eqb c "010" || Ascii.eqb c "013".
Lemma blankb_spec c : blankb c = true <-> blank c.
Proof.
  unfold blankb, blank. rewrite !orb_true_iff, !Ascii.eqb_eq. cbn. firstorder congruence.
Qed.
Lemma set_blank c : inSet [("032", "032"); ("009", "009"); ("010", "010"); ("013", "013")]%char c = blankb c.
Proof. now destruct c as [[] [] [] [] [] [] [] []]. Qed.
Lemma set_word c : inSet [("a", "z"); ("A", "Z"); ("0", "9"); ("_", "_")]%char c = isWord c.
Proof. now destruct c as [[] [] [] [] [] [] [] []]. Qed.
Lemma set_key c : inSet [("a", "z"); ("A", "Z"); ("0", "9"); ("_", "_"); ("-", "-")]%char c = isKey c.
Proof. now destruct c as [[] [] [] [] [] [] [] []]. Qed.
Lemma set_num c : inSet [("0", "9")]%char c = isNum c.
Proof. now destruct c as [[] [] [] [] [] [] [] []]. Qed.
Lemma set_num_ c : inSet [("0", "9"); ("_", "_")]%char c = isNum c || Ascii.eqb c "_".
Proof. now destruct c as [[] [] [] [] [] [] [] []]. Qed.
Definition hd_is (p : ascii -> bool) (s : text) : bool := match s with c :: _ => p c | [] => false end.
Lemma fails_set_hd l p s : (forall c, inSet l c = p c) -> hd_is p s = false -> fails (PSet l) s.
Proof. destruct s; intros E H; [apply fails_set_nil|apply fails_set]. cbn in H. congruence. Qed.

Section G.
Variable parseFloat : string -> option spec_float.
Variable path stubPath : list string.
Notation go := (go parseFloat path stubPath).

(** a run of characters of a class *)
Lemma go_many l p w s st : (forall c, inSet l c = p c) -> Forall (fun c => p c = true) w -> hd_is p s = false ->
  go (PStar (PSet l)) (w ++ s) s st st.
Proof.
  intros E F H. induction F as [|c w Hc F IH].
  - apply go_star_nil. now apply (fails_set_hd l p).
  - cbn [app]. eapply go_star_cons; [|exact IH]. apply go_set. now rewrite E.
Qed.
Lemma go_many1 l p w s st : (forall c, inSet l c = p c) -> Forall (fun c => p c = true) w -> w <> [] -> hd_is p s = false ->
  go (PPlus (PSet l)) (w ++ s) s st st.
Proof.
  intros E F N H. destruct F as [|c w Hc F]; [contradiction|]. cbn [app].
  eapply go_plus; [apply go_set; now rewrite E|]. now apply (go_many l p).
Qed.
(** blanks *)
Definition nb (s : text) : Prop := hd_is blankb s = false.
Lemma gap_b g : gap g -> Forall (fun c => blankb c = true) g.
Proof. intros H. induction H; constructor; auto. now apply blankb_spec. Qed.
Lemma go_ws g s st : gap g -> nb s -> go (PRule R_ws) (g ++ s) s st st.
Proof.
  intros G N. eapply go_rule0; [|intros ?; now destruct st]. apply (go_many _ blankb); auto using set_blank, gap_b.
Qed.
Lemma go_req g s st : space g -> nb s -> go (PRule R_req_ws) (g ++ s) s st st.
Proof.
  intros [G E] N. eapply go_rule0; [|intros ?; now destruct st]. apply (go_many1 _ blankb); auto using set_blank, gap_b.
Qed.
Lemma fails_req s : nb s -> fails (PRule R_req_ws) s.
Proof. intros N. apply fails_rule, fails_plus. now apply (fails_set_hd _ blankb); [apply set_blank|]. Qed.
Lemma nb_app g s : nb s -> g <> [] -> gap g -> ~ nb (g ++ s).
Proof.
  intros _ E G N. destruct G as [|c g B G]; [contradiction|]. apply blankb_spec in B. unfold nb in N. cbn in N. congruence.
Qed.
(** blanks are optional where they may be read before and are read again *)
Lemma gap_split g : gap g -> g = [] \/ space g.
Proof. intros G. destruct g as [|c g]; [now left|right]. split; [assumption|discriminate]. Qed.
Lemma gap_app a b : gap a -> gap b -> gap (a ++ b).
Proof. intros A B. now apply Forall_app. Qed.

(** failing at the first characters *)
Lemma fails_word w s : ~ startsWith (chars w) s -> fails (PLit w) s.
Proof.
  intros N. apply fails_lit. destruct (eat (chars w) (sing s)) eqn:E; [|reflexivity].
  apply eat_prefix in E. destruct E as [r [E _]]. exfalso. apply N. now exists r.
Qed.
(** a word that is not a prefix of a key is not one of a longer text either *)
Lemma word_key p k s : Forall (fun c => isKey c = true) p -> hd_is isKey s = false ->
  startsWith p (k ++ s) -> startsWith p k.
Proof.
  intros F H. revert k. induction F as [|c p Hc F IH]; intros k [r E]; [now exists k|].
  destruct k as [|d k].
  - cbn in E. subst s. cbn in H. congruence.
  - cbn in E. inversion E; subst. destruct (IH k) as [r' ->]; [now exists r|]. now exists r'.
Qed.
Lemma word_open p d k s : Forall (fun c => isKey c = true) p -> isKey d = false ->
  Forall (fun c => isKey c = true) k -> hd_is isKey s = false ->
  startsWith (p ++ [d]) (k ++ s) -> k = p.
Proof.
  intros F D FK H. revert k FK. induction F as [|c p Hc F IH]; intros k FK [r E].
  - destruct FK as [|d' k Hd FK]; [reflexivity|]. cbn in E. inversion E; subst. congruence.
  - destruct FK as [|d' k Hd FK].
    + cbn in E. subst s. cbn in H. congruence.
    + cbn in E. inversion E; subst. f_equal. apply IH; [assumption|]. now exists r.
Qed.

(** ** keys *)
(** what may follow a reference *)
Definition noColon (s : text) : Prop :=
  match s with
  | c :: r => Ascii.eqb c ":" = true -> hd_is (fun c => negb (blankb c)) r = false
  | [] => True
  end.
Lemma chars1 c s : chars (String c EmptyString) ++ s = c :: s.
Proof. reflexivity. Qed.
Lemma go_lit1 c s st : go (PLit (String c EmptyString)) (c :: s) s st st.
Proof. rewrite <- (chars1 c s). apply go_lit. Qed.
Lemma fails_lit1 c s : hd_is (fun d => Ascii.eqb d c) s = false -> fails (PLit (String c EmptyString)) s.
Proof.
  intros H. apply fails_lit. destruct s as [|d s]; [reflexivity|]. cbn in H |- *. now rewrite H.
Qed.
Lemma fails_colon s : noColon s -> fails (PSeq (PLit ":") (PSeq (PSet [("a", "z"); ("A", "Z"); ("0", "9"); ("_", "_")]%char)
    (PStar (PSet [("a", "z"); ("A", "Z"); ("0", "9"); ("_", "_"); ("-", "-")]%char)))) s.
Proof.
  intros N. destruct s as [|c s]; [apply fails_seq_l; apply fails_lit1; reflexivity|].
  destruct (Ascii.eqb c ":") eqn:E.
  - apply Ascii.eqb_eq in E. subst. eapply fails_seq_r; [exact (go_reads _ _ _ _ _ _ _ _ (go_lit1 ":" s start))|].
    apply fails_seq_l. apply (fails_set_hd _ isWord); [apply set_word|].
    specialize (N eq_refl). destruct s as [|d s]; [reflexivity|]. cbn in N |- *.
    destruct (isWord d) eqn:W; [|reflexivity]. now destruct d as [[] [] [] [] [] [] [] []].
  - apply fails_seq_l. apply fails_lit1. exact E.
Qed.
Lemma go_Key k s st : key k -> hd_is isKey s = false -> noColon s -> go (PRule R_Key) (k ++ s) s st st.
Proof.
  intros K H N. destruct k as [|c r]; [contradiction|]. destruct K as [W F].
  eapply go_rule0; [|intros ?; now destruct st]. cbn [app grammar].
  eapply go_seq; [apply go_set; now rewrite set_word|].
  eapply go_seq; [apply (go_many _ isKey); auto using set_key|].
  apply go_opt_none. now apply fails_colon.
Qed.
Lemma fails_Key s : hd_is isWord s = false -> fails (PRule R_Key) s.
Proof. intros H. apply fails_rule, fails_seq_l. now apply (fails_set_hd _ isWord); [apply set_word|]. Qed.
(** ** entries *)
Lemma go_Index n s st : indexText n -> go (PRule R_Index) (brackets n ++ s) s st st.
Proof.
  intros [neg [ds [-> [I [E F]]]]]. eapply go_rule0; [|intros ?; now destruct st].
  unfold brackets. cbn [app grammar]. eapply go_seq; [apply (go_lit1 "[")|].
  assert (M : go (PSeq (PPlus (PSet [("0", "9")]%char)) (PLit "]")) ((ds ++ ["]"%char]) ++ s) s st st).
  { rewrite <- app_assoc. eapply go_seq; [apply (go_many1 _ isNum); auto using set_num|]. apply go_lit1. }
  destruct I as [<-|[<-|[]]]; cbn [app].
  - eapply go_seq; [|exact M]. apply go_opt_none. apply fails_lit1.
    destruct F as [|c ds Hc F]; [contradiction|]. cbn.
    destruct (Ascii.eqb_spec c "-"); [subst; discriminate|reflexivity].
  - eapply go_seq; [|exact M]. apply go_opt_some. apply go_lit1.
Qed.
Lemma fails_Index s : (forall n v, indexText n -> s <> brackets n ++ v) -> fails (PRule R_Index) s.
Proof.
  intros H. apply fails_by; [reflexivity|]. intros s' R. apply reads_rule_inv in R. cbn [grammar] in R.
  apply reads_seq_inv in R. destruct R as [s1 [R1 R]]. apply reads_lit_inv in R1. subst s.
  apply reads_seq_inv in R. destruct R as [s2 [R2 R]].
  apply reads_seq_inv in R. destruct R as [s3 [R3 R]]. apply reads_lit_inv in R. subst s3.
  apply reads_plus_inv in R3. destruct R3 as [s4 [R3 R4]].
  apply reads_set_inv in R3. destruct R3 as [c [-> C]]. apply reads_many_inv in R4. destruct R4 as [w [-> F]].
  assert (D : Forall (fun c => isNum c = true) (c :: w)).
  { constructor; [now rewrite <- set_num|]. eapply Forall_impl; [|exact F]. intros a Ha. now rewrite <- set_num. }
  apply reads_opt_inv in R2. destruct R2 as [R2|[_ R2]].
  - apply reads_lit_inv in R2. subst s1. apply (H ("-"%char :: c :: w) s').
    + exists ["-"%char], (c :: w). repeat split; [now right; left|discriminate|assumption].
    + unfold brackets. cbn. now rewrite <- app_assoc.
  - subst s1. apply (H (c :: w) s').
    + exists [], (c :: w). repeat split; [now left|discriminate|assumption].
    + unfold brackets. cbn. now rewrite <- app_assoc.
Qed.

(** ** references *)
Definition isOne (l : list ascii) (c : ascii) : bool := existsb (Ascii.eqb c) l.
Definition tight (s : text) : Prop :=
  match s with
  | [] => True
  | c :: r => blankb c = true \/ isOne [")"; "]"; "}"; ","; "="; "|"; "?"; "("; "["; "*"]%char c = true \/
              (c = ":"%char /\ hd_is (fun c => negb (blankb c)) r = false) \/
              (c = "."%char /\ hd_is (isOne ["."; "["]%char) r = true)
  end.
Definition refstop (s : text) : Prop := tight s /\ fails (PRule R_PathComponent) s.
Lemma tight_key s : tight s -> hd_is isKey s = false.
Proof.
  destruct s as [|c r]; [reflexivity|]. cbn. intros [H|[H|[[-> H]|[-> H]]]]; try reflexivity;
    destruct c as [[] [] [] [] [] [] [] []]; try discriminate H; reflexivity.
Qed.
Lemma tight_colon s : tight s -> noColon s.
Proof.
  destruct s as [|c r]; [trivial|]. cbn. intros [H|[H|[[-> H]|[-> H]]]] E; try assumption; try discriminate;
    apply Ascii.eqb_eq in E; subst; discriminate.
Qed.
Lemma key_cons k : key k -> exists c r, k = c :: r /\ isWord c = true /\ Forall (fun c => isKey c = true) r.
Proof. destruct k as [|c r]; [contradiction|]. intros [A B]. now exists c, r. Qed.
Lemma word_key1 c : isWord c = true -> isKey c = true.
Proof. intros H. unfold isKey. now rewrite H. Qed.
Lemma key_all k : key k -> Forall (fun c => isKey c = true) k.
Proof. intros K. destruct (key_cons k K) as [c [r [-> [W F]]]]. constructor; auto using word_key1. Qed.
(** what follows a part inside of a reference *)
Definition sep (s : text) : Prop := hd_is isKey s = false /\ noColon s.
Lemma sep_parts ps s : sep s -> sep (List.concat (map partText ps) ++ s).
Proof. destruct ps as [|[k|[] n] ps]; [trivial|..]; intros _; split; cbn; try reflexivity; discriminate. Qed.
Lemma sep_tight s : tight s -> sep s.
Proof. intros T. split; auto using tight_key, tight_colon. Qed.
Lemma go_part p s st : partOk p -> sep s -> go (PRule R_PathComponent) (partText p ++ s) s st st.
Proof.
  intros O [H N]. eapply go_rule0; [|intros ?; now destruct st]. cbn [grammar]. destruct p as [k|dot n]; cbn [partText partOk app] in *.
  - apply go_alt_l. eapply go_seq; [apply go_lit1|]. now apply go_Key.
  - apply go_alt_r.
    + destruct dot; cbn [app].
      * eapply fails_seq_r; [exact (go_reads _ _ _ _ _ _ _ _ (go_lit1 "." _ start))|]. now apply fails_Key.
      * apply fails_seq_l. now apply fails_lit1.
    + destruct dot; cbn [app].
      * eapply go_seq; [apply go_opt_some, go_lit1|]. now apply go_Index.
      * eapply go_seq; [apply go_opt_none; now apply fails_lit1|]. now apply go_Index.
Qed.
Lemma go_parts ps s st : Forall partOk ps -> refstop s -> go (PRule R_FollowUpRef) (List.concat (map partText ps) ++ s) s st st.
Proof.
  intros F [T R]. eapply go_rule0; [|intros ?; now destruct st]. cbn [grammar].
  induction F as [|p ps O F IH]; cbn [map List.concat app].
  - now apply go_star_nil.
  - rewrite <- app_assoc. eapply go_star_cons; [|exact IH]. apply go_part; [assumption|].
    apply sep_parts. now apply sep_tight.
Qed.
(** tags *)
Fixpoint tagb (u : text) : bool :=
  match u with
  | [] => true
  | c :: r => (isKey c || (isOne ["."; ":"]%char c && hd_is isKey r)) && tagb r
  end.
Lemma tagb_app a b : tagb a = true -> tagb b = true -> tagb (a ++ b) = true.
Proof.
  induction a as [|c a IH]; [trivial|]. cbn [app tagb]. intros A B. apply andb_true_iff in A. destruct A as [A1 A2].
  rewrite IH by assumption. apply orb_true_iff in A1. destruct A1 as [->|A1]; [reflexivity|].
  apply andb_true_iff in A1. destruct A1 as [A1 A3]. rewrite A1. destruct a as [|d a]; [discriminate|].
  cbn in A3 |- *. rewrite A3. now rewrite orb_true_r.
Qed.
Lemma tagb_tail a b : tagb (a ++ b) = true -> tagb b = true.
Proof.
  induction a as [|c a IH]; [trivial|]. cbn [app tagb]. intros A. apply andb_true_iff in A. tauto.
Qed.
Lemma tagb_key w : Forall (fun c => isKey c = true) w -> tagb w = true.
Proof. induction 1 as [|c w H F IH]; [reflexivity|]. cbn. now rewrite H. Qed.
Lemma set_sep c : inSet [("."%char, "."%char); (":"%char, ":"%char)] c = isOne ["."; ":"]%char c.
Proof. now destruct c as [[] [] [] [] [] [] [] []]. Qed.
Lemma set_tag1 c : inSet [("a"%char, "z"%char); ("A"%char, "Z"%char); ("_"%char, "_"%char)] c = true -> isKey c = true.
Proof. now destruct c as [[] [] [] [] [] [] [] []]. Qed.
Lemma reads_TagComponent s s' : reads (PRule R_TagComponent) s s' ->
  exists w, s = w ++ s' /\ w <> [] /\ Forall (fun c => isKey c = true) w.
Proof.
  intros R. apply reads_rule_inv in R. apply reads_seq_inv in R. destruct R as [s1 [R1 R2]].
  apply reads_set_inv in R1. destruct R1 as [c [-> C]]. apply reads_many_inv in R2. destruct R2 as [w [-> F]].
  exists (c :: w). repeat split; [discriminate|]. constructor; [now apply set_tag1|].
  eapply Forall_impl; [|exact F]. intros d D. apply word_key1. now rewrite <- set_word.
Qed.
Lemma tagb_sep c w : isOne ["."; ":"]%char c = true -> w <> [] -> Forall (fun c => isKey c = true) w -> tagb (c :: w) = true.
Proof.
  intros C N F. cbn [tagb]. rewrite C, tagb_key by assumption. destruct F; [contradiction|]. cbn. rewrite H.
  now rewrite orb_true_r.
Qed.
Lemma reads_Tag s s' : reads (PRule R_Tag) s s' -> exists u, s = u ++ s' /\ tagb u = true.
Proof.
  intros R. apply reads_rule_inv in R. apply reads_seq_inv in R. destruct R as [s1 [R1 R2]].
  apply reads_TagComponent in R1. destruct R1 as [w [-> [N F]]].
  assert (X : exists u, s1 = u ++ s' /\ tagb u = true).
  { revert s1 s' R2.
    apply (reads_star_ind _ (fun s1 s' => exists u, s1 = u ++ s' /\ tagb u = true)); [intros x; now exists []|].
    intros x x1 x2 R [u [-> T]]. apply reads_seq_inv in R. destruct R as [y [Ra Rb]].
    apply reads_set_inv in Ra. destruct Ra as [c [-> C]]. rewrite set_sep in C.
    apply reads_TagComponent in Rb. destruct Rb as [v [-> [N' F']]].
    exists ((c :: v) ++ u). split; [cbn; now rewrite app_assoc|]. apply tagb_app; [|assumption]. now apply tagb_sep. }
  destruct X as [u [-> T]]. exists (w ++ u). split; [now rewrite app_assoc|]. apply tagb_app; [now apply tagb_key|assumption].
Qed.
Lemma reads_TagPrefix s s' : reads (PRule R_TagPrefix) s s' -> exists u, s = u ++ ":"%char :: ":"%char :: s' /\ tagb u = true.
Proof.
  intros R. apply reads_rule_inv in R. cbn [grammar] in R. apply reads_seq_inv in R. destruct R as [s1 [R1 R2]].
  apply reads_lit_inv in R2. subst s1. apply reads_alt_inv in R1. destruct R1 as [R1|[_ R1]].
  - apply reads_seq_inv in R1. destruct R1 as [s1 [R1 R]]. apply reads_lit_inv in R1. subst s.
    apply reads_seq_inv in R. destruct R as [s2 [R1 R]]. apply reads_set_inv in R1. destruct R1 as [c [-> C]]. rewrite set_sep in C.
    apply reads_seq_inv in R. destruct R as [s3 [R1 R]].
    apply reads_plus_inv in R. destruct R as [s4 [Ra Rb]]. apply reads_set_inv in Ra. destruct Ra as [d [-> D]].
    apply reads_many_inv in Rb. destruct Rb as [w [-> F]].
    assert (K : Forall (fun c => isKey c = true) (d :: w)).
    { assert (Y : forall c, inSet [("0"%char, "9"%char)] c = true -> isKey c = true)
        by (intros x; now destruct x as [[] [] [] [] [] [] [] []]).
      constructor; [now apply Y|]. eapply Forall_impl; [|exact F]. exact Y. }
    assert (Z : forall m, Forall (fun c => isKey c = true) m -> tagb (chars "doc" ++ c :: m ++ d :: w) = true).
    { intros m M. apply tagb_app; [reflexivity|]. apply tagb_sep; [assumption|now destruct m|now apply Forall_app]. }
    apply reads_opt_inv in R1. destruct R1 as [R1|[_ R1]].
    + apply reads_lit_inv in R1. subst s2. exists (chars "doc" ++ c :: ["-"%char] ++ d :: w). split; [reflexivity|].
      apply Z. now repeat constructor.
    + subst s2. exists (chars "doc" ++ c :: [] ++ d :: w). split; [reflexivity|]. apply Z. constructor.
  - apply reads_Tag in R1. destruct R1 as [u [-> T]]. now exists u.
Qed.
Lemma tag_split q : forall u s v, Forall (fun c => c <> ":"%char) q -> q ++ s = u ++ ":"%char :: v ->
  exists u', u = q ++ u' /\ s = u' ++ ":"%char :: v.
Proof.
  induction q as [|c q IH]; intros u s v F E; [now exists u|]. inversion F as [|? ? Hc F']; subst.
  destruct u as [|d u]; cbn in E; inversion E; subst; [contradiction|].
  destruct (IH u s v F' H1) as [u' [-> ->]]. now exists u'.
Qed.
Lemma fails_TagPrefix q s : Forall (fun c => c <> ":"%char) q -> tight s -> fails (PRule R_TagPrefix) (q ++ s).
Proof.
  intros F T. apply fails_by; [reflexivity|]. intros s' R. apply reads_TagPrefix in R. destruct R as [u [E B]].
  destruct (tag_split q u s _ F E) as [u' [-> ->]]. apply tagb_tail in B.
  destruct u' as [|c u']; cbn in T.
  - destruct T as [H|[H|[[_ H]|[H _]]]]; try discriminate H.
  - cbn [tagb] in B. apply andb_true_iff in B. destruct B as [B _]. apply orb_true_iff in B. destruct B as [B|B].
    + destruct T as [H|[H|[[-> H]|[-> H]]]]; try discriminate B;
        destruct c as [[] [] [] [] [] [] [] []]; try discriminate H; discriminate B.
    + apply andb_true_iff in B. destruct B as [B1 B2]. destruct u' as [|d u']; [discriminate|]. cbn in B2.
      destruct T as [H|[H|[[-> H]|[-> H]]]].
      * destruct c as [[] [] [] [] [] [] [] []]; try discriminate H; discriminate B1.
      * destruct c as [[] [] [] [] [] [] [] []]; try discriminate H; discriminate B1.
      * cbn in H. destruct d as [[] [] [] [] [] [] [] []]; try discriminate H; discriminate B2.
      * cbn in H. destruct d as [[] [] [] [] [] [] [] []]; try discriminate H; discriminate B2.
Qed.
(** no colons *)
Lemma key_nocolon k : Forall (fun c => isKey c = true) k -> Forall (fun c => c <> ":"%char) k.
Proof. intros F. eapply Forall_impl; [|exact F]. intros a A ->. discriminate. Qed.
Lemma index_chars n : indexText n -> Forall (fun c => isKey c = true) n.
Proof.
  intros [neg [ds [-> [I [_ F]]]]]. apply Forall_app. split.
  - destruct I as [<-|[<-|[]]]; repeat constructor.
  - eapply Forall_impl; [|exact F]. intros a A. unfold isKey, isWord. rewrite A. now rewrite orb_true_r.
Qed.
Lemma parts_nocolon ps : Forall partOk ps -> Forall (fun c => c <> ":"%char) (List.concat (map partText ps)).
Proof.
  induction 1 as [|p ps O F IH]; cbn; [constructor|]. apply Forall_app. split; [|assumption].
  destruct p as [k|dot n]; cbn in *.
  - constructor; [discriminate|]. apply key_nocolon, key_all, O.
  - apply Forall_app. split; [destruct dot; repeat constructor; discriminate|].
    constructor; [discriminate|]. apply Forall_app. split; [apply key_nocolon, index_chars, O|repeat constructor; discriminate].
Qed.
Lemma lastColons_none l : Forall (fun c => c <> ":"%char) l -> lastColons l = None.
Proof.
  induction 1 as [|c l H F IH]; [reflexivity|]. cbn. rewrite IH. destruct l as [|d l]; [reflexivity|].
  destruct (Ascii.eqb_spec c ":"); [contradiction|reflexivity].
Qed.
Lemma ofchars_snoc a c : ofchars (a ++ [c]) = (ofchars a +++ String c EmptyString)%string.
Proof. induction a as [|d a IH]; [reflexivity|]. cbn. f_equal. exact IH. Qed.
Lemma pathLoop_acc w : forall more lead comp, Forall (fun c => c <> "."%char /\ c <> "["%char) w ->
  pathLoop (w ++ more) lead (ofchars comp) = pathLoop more lead (ofchars (comp ++ w)).
Proof.
  induction w as [|c w IH]; intros more lead comp F; [now rewrite app_nil_r|].
  inversion F as [|? ? [H1 H2] F']; subst. cbn [app pathLoop].
  destruct (Ascii.eqb_spec c "."); [contradiction|]. destruct (Ascii.eqb_spec c "["); [contradiction|].
  rewrite <- ofchars_snoc, IH by assumption. now rewrite <- app_assoc.
Qed.
Lemma key_nodot k : Forall (fun c => isKey c = true) k -> Forall (fun c => c <> "."%char /\ c <> "["%char) k.
Proof. intros F. eapply Forall_impl; [|exact F]. intros a A. split; intros ->; discriminate. Qed.
Lemma pathLoop_parts ps : Forall partOk ps -> forall c lead comp,
  pathLoop (List.concat (map partText ps)) lead (ofchars (c :: comp)) = ofchars (c :: comp) :: map partName ps.
Proof.
  induction 1 as [|p ps O F IH]; intros c lead comp; [reflexivity|]. cbn [map List.concat].
  assert (B : forall n x, indexText n -> pathLoop (n ++ "]"%char :: List.concat (map partText ps)) x "[" = ofchars (brackets n) :: map partName ps).
  { intros n x I. change "["%string with (ofchars ["["%char]). 
    change (n ++ "]"%char :: List.concat (map partText ps)) with (n ++ ["]"%char] ++ List.concat (map partText ps)).
    rewrite app_assoc. rewrite pathLoop_acc; [apply IH|]. apply Forall_app.
    split; [apply key_nodot, index_chars, I|repeat constructor; discriminate]. }
  destruct p as [k|[] n]; cbn [partText partName partOk app] in *.
  - cbn [pathLoop]. cbn. f_equal. destruct (key_cons k O) as [d [r [-> [W K]]]].
    change ""%string with (ofchars []). rewrite pathLoop_acc by (apply key_nodot; constructor; auto using word_key1).
    apply IH.
  - cbn. f_equal. rewrite <- app_assoc. now apply B.
  - cbn. f_equal. rewrite <- app_assoc. now apply B.
Qed.
Lemma path_ref k ps : key k -> Forall partOk ps ->
  pathComponents (ofchars (k ++ List.concat (map partText ps))) true = ofchars k :: map partName ps.
Proof.
  intros K F. unfold pathComponents. rewrite chars_of. destruct (key_cons k K) as [d [r [-> [W Kr]]]].
  change ""%string with (ofchars []). rewrite pathLoop_acc by (apply key_nodot; constructor; auto using word_key1).
  now apply pathLoop_parts.
Qed.
Lemma path_root k ps : key k -> Forall partOk ps ->
  pathComponents (ofchars ("."%char :: k ++ List.concat (map partText ps))) true = ""%string :: ofchars k :: map partName ps.
Proof.
  intros K F. unfold pathComponents. rewrite chars_of. cbn. f_equal. destruct (key_cons k K) as [d [r [-> [W Kr]]]].
  change ""%string with (ofchars []). rewrite pathLoop_acc by (apply key_nodot; constructor; auto using word_key1).
  now apply pathLoop_parts.
Qed.
Lemma path_qual ps : ps <> [] -> Forall partOk ps ->
  pathComponents (ofchars (List.concat (map partText ps))) false = map partName ps.
Proof.
  intros N F. unfold pathComponents. rewrite chars_of. destruct F as [|p ps O F]; [contradiction|].
  cbn [map List.concat]. 
  assert (B : forall n, indexText n -> pathLoop (n ++ "]"%char :: List.concat (map partText ps)) false "[" = ofchars (brackets n) :: map partName ps).
  { intros n I. change "["%string with (ofchars ["["%char]).
    change (n ++ "]"%char :: List.concat (map partText ps)) with (n ++ ["]"%char] ++ List.concat (map partText ps)).
    rewrite app_assoc. rewrite pathLoop_acc; [now apply pathLoop_parts|]. apply Forall_app.
    split; [apply key_nodot, index_chars, I|repeat constructor; discriminate]. }
  destruct p as [k|[] n]; cbn [partText partName partOk app] in *.
  - cbn. destruct (key_cons k O) as [d [r [-> [W K]]]].
    change ""%string with (ofchars []). rewrite pathLoop_acc by (apply key_nodot; constructor; auto using word_key1).
    now apply pathLoop_parts.
  - cbn. rewrite <- app_assoc. now apply B.
  - cbn. rewrite <- app_assoc. now apply B.
Qed.
Lemma app_same_tail (a b s : text) : a ++ s = b ++ s -> a = b.
Proof. apply app_inv_tail. Qed.
Lemma go_Reference k ps s st : key k -> hd_is isNum k = false \/ True -> Forall partOk ps -> refstop s ->
  go (PRule R_Reference) ((k ++ List.concat (map partText ps)) ++ s) s st (push (ERef "" (ofchars k :: map partName ps)) st).
Proof.
  intros K _ F R. eapply go_rule.
  - cbn [grammar]. rewrite <- app_assoc. eapply go_seq.
    + apply go_alt_r.
      * apply fails_seq_l. rewrite app_assoc. apply fails_TagPrefix; [|apply R].
        apply Forall_app. split; [apply key_nocolon, key_all, K|now apply parts_nocolon].
      * eapply go_seq; [apply go_opt_none|].
        -- apply fails_lit1. destruct (key_cons k K) as [c [r [-> [W _]]]]. cbn.
           destruct (Ascii.eqb_spec c "."); [subst; discriminate|reflexivity].
        -- destruct (sep_parts ps s (sep_tight _ (proj1 R))) as [A B]. now apply go_Key.
    + now apply go_parts.
  - intros w E. apply app_same_tail in E. subst w. cbn [Parser.action].
    unfold refOf. rewrite chars_of, lastColons_none.
    + now rewrite path_ref.
    + apply Forall_app. split; [apply key_nocolon, key_all, K|now apply parts_nocolon].
Qed.
Lemma go_RootReference k ps s st : key k -> Forall partOk ps -> refstop s ->
  go (PRule R_Reference) (("."%char :: k ++ List.concat (map partText ps)) ++ s) s st (push (ERef "" (""%string :: ofchars k :: map partName ps)) st).
Proof.
  intros K F R. eapply go_rule.
  - cbn [grammar app]. rewrite <- app_assoc. eapply go_seq.
    + apply go_alt_r; [apply fails_seq_l; dead|].
      eapply go_seq; [apply go_opt_some, go_lit1|].
      destruct (sep_parts ps s (sep_tight _ (proj1 R))) as [A B]. now apply go_Key.
    + now apply go_parts.
  - intros w E. apply app_same_tail in E. subst w. cbn [Parser.action].
    unfold refOf. rewrite chars_of, lastColons_none.
    + now rewrite path_root.
    + constructor; [discriminate|]. apply Forall_app. split; [apply key_nocolon, key_all, K|now apply parts_nocolon].
Qed.
End G.
