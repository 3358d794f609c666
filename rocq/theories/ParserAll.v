(** The parser reads every written expression (Written.v): the cases. *)
From Verif Require Import Core CoreFacts Str StrFacts DecSpec Peg PegFacts Grammar Eval Parser ParserFacts ParserRead Written ParserWords ParserClean ParserLits ParserWritten.
From Coq Require Import SpecFloat Lia PeanoNat.
Import ListNotations.

Section W.
Variable parseFloat : string -> option spec_float.
Variable path stubPath : list string.
Notation go := (go parseFloat path stubPath).
Notation chain := (PStar (PRule R_ChainedQualifiedExpression)).
Notation lit1 := (go_lit1 parseFloat path stubPath).
Notation gows := (go_ws parseFloat path stubPath).
Notation goreq := (go_req parseFloat path stubPath).
Notation opened := (opened parseFloat path stubPath).
Notation closed := (closed parseFloat path stubPath).
Notation PW := (PW parseFloat path stubPath).
Notation noscope_hd := (noscope_hd parseFloat path stubPath).
Notation front_hd := (front_hd parseFloat path stubPath).
Notation closing_bars := (closing_bars parseFloat path stubPath).
Notation step_fails := (step_fails parseFloat path stubPath).
Notation closing_step := (closing_step parseFloat path stubPath).
Notation startOK_ops := (startOK_ops parseFloat path stubPath).
Notation closing_stops := (closing_stops parseFloat path stubPath).
Notation closed_read := (closed_read parseFloat path stubPath).
Notation read8 := (read8 parseFloat path stubPath).
Ltac rd L := exact (go_reads parseFloat path stubPath _ _ _ _ L).
Ltac quiet := eapply go_rule0; [|intros ?; match goal with |- _ _ _ ?s = _ => now destruct s end]; cbn [grammar].

Lemma lead0 n : lead n [].
Proof. split; [constructor|reflexivity]. Qed.
Lemma lead_nil n g : lead n g -> (n <= 6)%nat -> g = [].
Proof. intros [_ H]. exact H. Qed.

(** ** words as texts *)
Definition wordy (t : text) : Prop := Forall (fun c => isWord c = true) t.
Lemma noname_word w t : wordy w -> (forall s, fol s -> fol (t ++ s)) -> noname (w ++ t).
Proof. intros W H s F. exists w, (t ++ s). rewrite <- app_assoc. auto. Qed.
Lemma okhd_word c : isWord c = true -> okhd c = true.
Proof. intros H. unfold okhd. now rewrite H. Qed.
Lemma front_word c w t : isWord c = true -> c <> "p"%char -> wordy w -> (forall s, fol s -> fol (t ++ s)) -> front ((c :: w) ++ t).
Proof.
  intros W N F H. split; [split|..].
  - cbn. now apply okhd_word.
  - now apply nopref_hd.
  - apply noname_word; [now constructor|assumption].
  - cbn. unfold starter. now rewrite W.
  - apply noscope_hd; [cbn; now apply okhd_word|]. cbn. destruct (Ascii.eqb_spec c "("); [subst; discriminate|reflexivity].
Qed.
Lemma front_word0 c w : isWord c = true -> c <> "p"%char -> wordy w -> front (c :: w).
Proof. intros W N F. pose proof (front_word c w [] W N F (fun s H => H)) as X. now rewrite app_nil_r in X. Qed.
Lemma fol_hd c t s : isWord c = false -> blankb c = false -> c <> "="%char -> fol ((c :: t) ++ s).
Proof.
  intros W B N. split; [assumption|]. cbn. rewrite B. cbn. destruct (Ascii.eqb_spec c "="); [contradiction|reflexivity].
Qed.
Lemma PW0 e t : front t -> (forall s st, stop0 s -> go (PRule R_Level0) (t ++ s) s st (push e st)) -> PW false 0 e t.
Proof. intros F G. split; [apply F|]. split; [trivial|]. exact G. Qed.

(** ** literals *)
Lemma PW_int s z : literal s z -> in64 z -> PW false 0 (EInt z) (chars s).
Proof.
  intros L R. apply PW0; [|intros; now apply go_int].
  destruct L as [D|[r [y [-> [D _]]]]]; destruct (digits_of _ _ D) as [N F].
  - destruct F as [|c w C F]; [contradiction|]. apply front_word0.
    + unfold isWord. rewrite C. now rewrite orb_true_r.
    + intros ->. discriminate.
    + eapply Forall_impl; [|exact F]. intros a A. unfold isWord. rewrite A. now rewrite orb_true_r.
  - change (chars (String "-" r)) with ("-"%char :: chars r). apply front_hd; try reflexivity; try discriminate.
    cbn. destruct F as [|c w C F]; [contradiction|]. unfold starter. cbn. now rewrite C.
Qed.
Lemma PW_str s t : quoted s t -> PW false 0 (EStr (ofchars s)) ("034"%char :: t ++ ["034"%char]).
Proof. intros Q. apply PW0; [apply front_hd; try reflexivity; discriminate|]. intros. now apply go_string. Qed.
Lemma PW_true : PW false 0 (EBool true) (chars "true").
Proof. apply PW0; [apply front_word0; [reflexivity|discriminate|repeat constructor]|]. intros. now apply go_true. Qed.
Lemma PW_false : PW false 0 (EBool false) (chars "false").
Proof. apply PW0; [apply front_word0; [reflexivity|discriminate|repeat constructor]|]. intros. now apply go_false. Qed.
Lemma PW_nil : PW false 0 ENil (chars "nil").
Proof. apply PW0; [apply front_word0; [reflexivity|discriminate|repeat constructor]|]. intros. now apply go_nil. Qed.
Lemma PW_auto : PW false 0 (EAuto path) (chars "auto").
Proof.
  apply PW0; [apply front_word0; [reflexivity|discriminate|repeat constructor]|]. intros s st _.
  quiet. do 10 (apply go_alt_r; [dead|]). apply go_alt_l. eapply go_rule; [apply go_lit|]. reflexivity.
Qed.
Lemma PW_tilde : PW false 0 ENil (chars "~").
Proof. apply PW0; [apply front_hd; try reflexivity; discriminate|]. intros. now apply go_tilde. Qed.
Lemma PW_undef : PW false 0 EUndef (chars "~~").
Proof. apply PW0; [apply front_hd; try reflexivity; discriminate|]. intros. now apply go_undef. Qed.
Lemma PW_symbol n : name n -> PW false 0 (EStr (ofchars n)) ("$"%char :: n).
Proof. intros N. apply PW0; [apply front_hd; try reflexivity; discriminate|]. intros. now apply go_symbol. Qed.

(** ** prefix operators *)
Lemma front_not g t : gap g -> front t -> front ("!"%char :: g ++ t).
Proof.
  intros G F. apply front_hd; try reflexivity; try discriminate. cbn. unfold starter. cbn.
  destruct (startOK_hd _ (f_start _ F)) as [O _].
  destruct G as [|c g B G]; cbn.
  - destruct t as [|c t]; [discriminate|]. cbn in O |- *. destruct (Ascii.eqb_spec c "="); [subst; discriminate|reflexivity].
  - destruct (Ascii.eqb_spec c "="); [subst; apply blankb_spec in B; discriminate|reflexivity].
Qed.
Lemma go_not_op g t s s' st e : gap g -> nb (t ++ s) -> go (PRule R_Level0) (t ++ s) s' st (push e st) ->
  go (PRule R_Level0) (("!"%char :: g ++ t) ++ s) s' st (push (ENot e) st).
Proof.
  intros G N H. quiet. cbn [app]. do 7 (apply go_alt_r; [dead|]). apply go_alt_l.
  eapply go_rule; [cbn [grammar]; eapply go_seq; [apply lit1|]|].
  - rewrite <- app_assoc. eapply go_seq; [now apply gows|exact H].
  - reflexivity.
Qed.
Lemma front_nb t s : front t -> nb (t ++ s).
Proof. intros F. apply okhd_nb, hd_app, startOK_hd, F. Qed.
Lemma PW_not o g e t : gap g -> PW o 0 e t -> PW o 0 (ENot e) ("!"%char :: g ++ t).
Proof.
  intros G [F8 [F C]]. specialize (F ltac:(lia)). pose proof (front_not g t G F) as F'.
  split; [apply F'|]. split; [trivial|]. destruct o.
  - intros g0 h s1 L H K S. rewrite (lead_nil _ _ L) by lia. destruct (C [] h s1 (lead0 _) H K S) as [s2 [E2 R]].
    exists s2. split; [assumption|]. intros st. apply go_not_op; [assumption|now apply front_nb|apply R].
  - intros s st S. apply go_not_op; trivial; [now apply front_nb|]. now apply C.
Qed.
Lemma go_subst_op t s s' st e : go (PRule R_Level0) (t ++ s) s' st (push e st) ->
  go (PRule R_Level0) (("*"%char :: t) ++ s) s' st (push (ESubst e) st).
Proof.
  intros H. quiet. cbn [app]. do 8 (apply go_alt_r; [dead|]). apply go_alt_l.
  eapply go_rule; [cbn [grammar]; eapply go_seq; [apply lit1|exact H]|]. reflexivity.
Qed.
Lemma PW_subst o e t : PW o 0 e t -> PW o 0 (ESubst e) ("*"%char :: t).
Proof.
  intros [F8 [F C]]. specialize (F ltac:(lia)).
  assert (F' : front ("*"%char :: t)).
  { apply front_hd; try reflexivity; try discriminate. cbn. unfold starter. cbn.
    pose proof (front_nb t [] F) as N. rewrite app_nil_r in N. destruct (startOK_hd _ (f_start _ F)) as [O _].
    destruct t as [|c t]; [discriminate|]. unfold nb in N. cbn in N |- *. now rewrite N. }
  split; [apply F'|]. split; [trivial|]. destruct o.
  - intros g0 h s1 L H K S. rewrite (lead_nil _ _ L) by lia. destruct (C [] h s1 (lead0 _) H K S) as [s2 [E2 R]].
    exists s2. split; [assumption|]. intros st. apply go_subst_op, R.
  - intros s st S. apply go_subst_op. now apply C.
Qed.

(** ** binary operators *)
Definition opc (n : nat) (op : string) : Prop :=
  (1 <= n <= 7)%nat /\ n <> 5%nat /\ n <> 6%nat /\ nb (chars op) /\ (forall u, eqok (chars op ++ u) = true) /\ chars op <> [] /\
  (forall c r k, blank c -> (1 <= k < n)%nat -> (k <= 5)%nat -> fails (ops k) (chars op ++ c :: r)) /\
  (forall u, hd_is (fun c => Ascii.eqb c "?") (chars op ++ u) = false).
Lemma binop_opc n op k : binop n op k -> opc n op.
Proof.
  intros B. unfold opc.
  assert (X : forall m, (m < 7)%nat -> forall k, (1 <= k < m)%nat -> (k <= 5)%nat -> In k (seq 1 5)).
  { intros m M j J J5. apply in_seq. lia. }
  destruct B as [| | | | |op I| | | |]; heads; cbn [chars list_ascii_of_string];
  (split; [lia|]; split; [lia|]; split; [lia|]; split; [reflexivity|]; split; [reflexivity|]; split; [discriminate|]; split; [|reflexivity];
   intros c r j Bc J J5; unfold blank in Bc; heads;
   (destruct j as [|[|[|[|[|[|j]]]]]]; try lia; dead)).
Qed.
Ltac opl L R := eapply go_rule; [cbn [grammar]; eapply go_seq; [apply (go_lit parseFloat path stubPath L)|eapply go_seq; [now apply goreq|apply R]]|reflexivity].
Lemma go_CompareOp op g s1 st : In op ["=="; "!="; "<="; ">="; "<"; ">"]%string -> space g ->
  go (PRule R_CompareOp) (chars op ++ g ++ s1) (g ++ s1) st (pushI (IOp op) st).
Proof.
  intros I [G NE]. destruct G as [|c g Bc G]; [contradiction|]. cbn [app]. eapply go_rule.
  - cbn [grammar]. instantiate (1 := st). unfold blank in Bc. heads;
      repeat match goal with
      | |- go (PLit ?l // _) _ _ _ _ => first [apply go_alt_l; apply (go_lit parseFloat path stubPath l) | apply go_alt_r; [solve [dead]|]]
      end; apply (go_lit parseFloat path stubPath _).
  - intros w E. apply app_inv_tail in E. subst w. cbn [action]. unfold chars. now rewrite string_of_list_ascii_of_string.
Qed.
Lemma go_OrOp op s st : In op ["||"; "//"]%string -> go (PRule R_OrOp) (chars op ++ s) s st (pushI (IOp op) st).
Proof.
  intros I. eapply go_rule.
  - cbn [grammar]. instantiate (1 := st). heads; [apply go_alt_l|apply go_alt_r; [dead|]]; apply go_lit.
  - intros w E. apply app_inv_tail in E. subst w. cbn [action]. unfold chars. now rewrite string_of_list_ascii_of_string.
Qed.
Lemma binop_step n op k a b g s' s1 st : binop n op k -> space g -> nb s1 ->
  (forall st, go (lv (n - 1)) s1 s' st (push b st)) ->
  go (ops n) (chars op ++ g ++ s1) s' (push a st) (push (k a b) st).
Proof.
  intros B G N R. destruct B as [| | | | |op I| | | |]; cbn [ops].
  - apply go_alt_l. opl "*"%string R.
  - apply go_alt_r; [dead|]. apply go_alt_l. opl "/"%string R.
  - apply go_alt_r; [dead|]. apply go_alt_r; [dead|]. opl "%"%string R.
  - apply go_alt_l. opl "+"%string R.
  - apply go_alt_r; [dead|]. opl "-"%string R.
  - eapply go_rule; [cbn [grammar]; eapply go_seq; [now apply go_CompareOp|eapply go_seq; [now apply goreq|apply R]]|reflexivity].
  - apply go_alt_l. opl "-or"%string R.
  - apply go_alt_r; [dead|]. opl "-and"%string R.
  - eapply go_rule; [cbn [grammar]; eapply go_seq; [apply (go_OrOp "||"); inl|eapply go_seq; [now apply goreq|apply R]]|reflexivity].
  - eapply go_rule; [cbn [grammar]; eapply go_seq; [apply (go_OrOp "//"); inl|eapply go_seq; [now apply goreq|apply R]]|reflexivity].
Qed.
Lemma space_stop0 g s : space g -> stop0 (g ++ s).
Proof. intros [G N]. destruct G as [|c g B G]; [contradiction|]. cbn. left. now apply blankb_spec. Qed.
Lemma op_stops n op g g' s : opc n op -> space g -> space g' -> stops (n - 1) (g ++ chars op ++ g' ++ s).
Proof.
  intros [N1 [N5 [N6 [Nb [Eq [NE [F Q]]]]]]] G [G' NG']. split; [now apply space_stop0|]. split.
  - intros k K1 K2. apply step_fails; [apply G| |right].
    + unfold nb in *. now destruct (chars op).
    + destruct G' as [|c g' B G']; [contradiction|]. cbn [app]. apply F; [assumption|lia|assumption].
  - intros _. exists g, (chars op ++ g' ++ s). split; [reflexivity|]. split; [apply G|]. split; [|apply Q].
    unfold nb in *. now destruct (chars op).
Qed.
Lemma tail_op n op g g' t : opc n op -> space g -> tailok (g ++ chars op ++ g' ++ t).
Proof.
  intros [_ [_ [_ [Nb [Eq [NE _]]]]]] G. apply tailok_gap; [assumption| | |].
  - unfold nb in *. now destruct (chars op).
  - intros u. rewrite <- app_assoc. apply Eq.
  - now destruct (chars op).
Qed.
Lemma step_op n : n <> 5%nat -> step n = @@R_req_ws ~> ops n.
Proof. intros N. do 5 (destruct n as [|n]; [reflexivity|]). destruct n as [|n]; [contradiction|reflexivity]. Qed.
(** the levels with a loop *)
Lemma closed_loop n e t : (1 <= n <= 7)%nat -> n <> 6%nat -> closed n e t ->
  forall g0 s s' st st', lead n g0 -> stops (n - 1) s -> go (loop n) s s' (push e st) st' -> go (lv n) (g0 ++ t ++ s) s' st st'.
Proof.
  intros N N6 C g0 s s' st st' [G0 L] S R. destruct (Nat.eq_dec n 7) as [->|N7].
  - now apply C.
  - rewrite L by lia. do 6 (destruct n as [|n]; [first [lia | now apply C]|]). lia.
Qed.
Lemma mk_closed n e t : (1 <= n <= 7)%nat -> n <> 6%nat ->
  (forall g0 s s' st st', lead n g0 -> stops (n - 1) s -> go (loop n) s s' (push e st) st' -> go (lv n) (g0 ++ t ++ s) s' st st') ->
  closed n e t.
Proof.
  intros N N6 H. destruct (Nat.eq_dec n 7) as [->|N7].
  - intros g0 s s' st st' G0. apply H. split; [assumption|lia].
  - do 6 (destruct n as [|n]; [first [lia | intros s s' st st'; apply (H []); apply lead0]|]). lia.
Qed.
(** the left operand only has to be read completely in front of the operator *)
Lemma PW_left o n op k a ta g g' b tb : binop n op k -> front ta -> space g -> space g' -> PW o (n - 1) b tb ->
  (forall g0 x s' st st', lead n g0 -> go (loop n) (g ++ chars op ++ g' ++ x) s' (push a st) st' ->
    go (lv n) (g0 ++ ta ++ (g ++ chars op ++ g' ++ x)) s' st st') ->
  PW o n (k a b) (ta ++ g ++ chars op ++ g' ++ tb).
Proof.
  intros B Fa G G' [Fb8 [Fb Cb]] Ca. pose proof (binop_opc _ _ _ B) as O.
  assert (N : (1 <= n <= 7)%nat /\ n <> 5%nat /\ n <> 6%nat) by (destruct O; tauto).
  specialize (Fb ltac:(lia)).
  assert (F : front (ta ++ g ++ chars op ++ g' ++ tb)) by (apply front_ap; [assumption|]; now apply (tail_op n)).
  assert (Y : forall g0 s s1 s' st st', lead n g0 -> (forall st, go (lv (n - 1)) (tb ++ s) s1 st (push b st)) ->
    go (loop n) s1 s' (push (k a b) st) st' -> go (lv n) (g0 ++ (ta ++ g ++ chars op ++ g' ++ tb) ++ s) s' st st').
  { intros g0 s s1 s' st st' L R H.
    replace ((ta ++ g ++ chars op ++ g' ++ tb) ++ s) with (ta ++ (g ++ chars op ++ g' ++ (tb ++ s))) by (now rewrite <- !app_assoc).
    apply Ca; [assumption|].
    eapply go_star_cons; [|exact H]. rewrite step_op by tauto.
    eapply go_seq; [apply goreq; [assumption|]|].
    - destruct O as [_ [_ [_ [Nb [_ [NE _]]]]]]. unfold nb in *. now destruct (chars op).
    - apply binop_step; trivial. now apply front_nb. }
  split; [apply F|]. split; [trivial|]. destruct o.
  - intros g0 h s1 L H K S. destruct (Cb [] h s1 (lead0 _) H K S) as [s2 [E2 R]]. cbn [app] in R.
    exists s2. split; [destruct E2 as [E2|[_ E2]]; [now left|right; split; [lia|assumption]]|]. intros st.
    apply (Y g0 (h ++ s1) s2); trivial. apply go_star_nil.
    assert (I : In n [1; 2; 3; 4; 5; 7]%nat) by (cbn; lia).
    destruct E2 as [->|[_ ->]]; [apply (closing_step s1 []); trivial; constructor|now apply closing_step].
  - apply mk_closed; try tauto. intros g0 s s' st st' L S H. apply (Y g0 s s); trivial.
    intros st1. apply (closed_read (n - 1) b tb ltac:(lia) Cb [] s st1); [apply lead0|assumption|lia].
Qed.
Lemma PW_binary o n op k a ta g g' b tb : binop n op k -> PW false n a ta -> space g -> space g' -> PW o (n - 1) b tb ->
  PW o n (k a b) (ta ++ g ++ chars op ++ g' ++ tb).
Proof.
  intros B [Fa8 [Fa Ca]] G G' Pb. pose proof (binop_opc _ _ _ B) as O.
  assert (N : (1 <= n <= 7)%nat /\ n <> 5%nat /\ n <> 6%nat) by (destruct O; tauto).
  apply PW_left; trivial; [apply Fa; lia|]. intros g0 x s' st st' L R.
  apply (closed_loop n a ta); try tauto. now apply op_stops.
Qed.
(** reading an operand up to level 7 *)
Lemma climb e t s g0 s' st st' : startOK t -> (forall st, go (lv 0) (t ++ s) s st (push e st)) -> stops 6 s -> gap g0 ->
  go (loop 7) s s' (push e st) st' -> go (lv 7) (g0 ++ t ++ s) s' st st'.
Proof.
  intros T R S G0 L.
  assert (Q : forall k, (1 <= k <= 5)%nat -> fails (step k) s) by (intros k K; apply S; lia).
  assert (R1 : forall st, go (lv 1) (t ++ s) s st (push e st)).
  { intros x. cbn [lv]. quiet. eapply go_seq; [apply R|apply go_star_nil, (Q 1%nat); lia]. }
  assert (R2 : forall st, go (lv 2) (t ++ s) s st (push e st)).
  { intros x. cbn [lv]. quiet. eapply go_seq; [apply R1|apply go_star_nil, (Q 2%nat); lia]. }
  assert (R3 : forall st, go (lv 3) (t ++ s) s st (push e st)).
  { intros x. cbn [lv]. quiet. eapply go_seq; [apply R2|apply go_star_nil, (Q 3%nat); lia]. }
  assert (R4 : forall st, go (lv 4) (t ++ s) s st (push e st)).
  { intros x. cbn [lv]. quiet. eapply go_seq; [apply R3|apply go_star_nil, (Q 4%nat); lia]. }
  assert (R5 : forall st, go (lv 5) (t ++ s) s st (push e st)).
  { intros x. cbn [lv]. quiet. eapply go_seq; [apply R4|apply go_star_nil, (Q 5%nat); lia]. }
  destruct (proj2 (proj2 S) ltac:(lia)) as [g [s1 [E [G [N X]]]]].
  cbn [lv]. quiet. eapply go_seq; [apply gows; [assumption|apply okhd_nb, hd_app; now apply startOK_hd]|].
  eapply go_seq; [|exact L]. quiet. apply go_alt_r; [|apply R5].
  now apply (noq_Conditional parseFloat path stubPath e t s s g s1).
Qed.
(** ** concatenation *)
Lemma PW_concat o a ta g b tb : PW false 5 a ta -> space g -> PW o 4 b tb -> PW o 5 (EConcat a b) (ta ++ g ++ tb).
Proof.
  intros [Fa8 [Fa Ca]] G [Fb8 [Fb Cb]]. specialize (Fa ltac:(lia)). specialize (Fb ltac:(lia)).
  destruct (startOK_hd _ (f_start _ Fb)) as [Ob _].
  assert (F : front (ta ++ g ++ tb)).
  { apply front_ap; [assumption|]. apply tailok_gap; [assumption|now apply okhd_nb| |].
    - intros u. destruct tb as [|c tb]; [discriminate|]. cbn in Ob |- *.
      destruct (Ascii.eqb_spec c "="); [subst; discriminate|reflexivity].
    - intros ->. discriminate. }
  assert (Y : forall s s1 s' st st', (forall st, go (lv 4) (tb ++ s) s1 st (push b st)) ->
    go (loop 5) s1 s' (push (EConcat a b) st) st' -> go (lv 5) ((ta ++ g ++ tb) ++ s) s' st st').
  { intros s s1 s' st st' R H.
    replace ((ta ++ g ++ tb) ++ s) with (ta ++ (g ++ (tb ++ s))) by (now rewrite <- !app_assoc).
    apply Ca.
    - split; [now apply space_stop0|]. split; [|lia]. intros k K1 K2. apply step_fails; [apply G|now apply front_nb|right].
      apply startOK_ops; [apply startOK_app, Fb|]. cbn. lia.
    - eapply go_star_cons; [|exact H]. cbn [step]. eapply go_rule; [cbn [grammar]; eapply go_seq; [apply goreq; [assumption|now apply front_nb]|apply R]|].
      reflexivity. }
  split; [apply F|]. split; [trivial|]. destruct o.
  - intros g0 h s1 L H K S. rewrite (lead_nil _ _ L) by lia. destruct (Cb [] h s1 (lead0 _) H K S) as [s2 [E2 R]]. cbn [app] in R |- *.
    exists s2. split; [destruct E2 as [E2|[_ E2]]; [now left|right; split; [lia|assumption]]|]. intros st.
    apply (Y (h ++ s1) s2); trivial. apply go_star_nil.
    destruct E2 as [->|[_ ->]]; [apply (closing_step s1 []); trivial; [constructor|inl]|apply closing_step; trivial; inl].
  - intros s s' st st' S H. apply (Y s s); trivial. intros st1.
    apply (closed_read 4 b tb ltac:(lia) Cb [] s st1); [apply lead0|assumption|lia].
Qed.
(** ** conditionals *)
Lemma stops_q g s : gap g -> stops 5 (g ++ "?"%char :: s).
Proof.
  intros G. split; [apply stop0_gap; [assumption|]; intros _; cbn; right; now left|]. split; [|lia].
  intros k K1 K2. apply step_fails; [assumption|reflexivity|right].
  assert (I : In k [1; 2; 3; 4; 5]%nat) by (cbn; lia). heads; dead.
Qed.
Lemma PW_cond c tc g g1 x tx g2 g3 y ty : PW false 5 c tc -> gap g -> gap g1 -> PW true 8 x tx -> gap g2 -> gap g3 -> PW true 8 y ty ->
  g2 <> [] \/ g3 <> [] ->
  PW true 6 (ECond c x y) (tc ++ g ++ "?"%char :: g1 ++ tx ++ g2 ++ ":"%char :: g3 ++ ty).
Proof.
  intros [Fc8 [Fc Cc]] G G1 Px G2 G3 Py NE. specialize (Fc ltac:(lia)).
  assert (F : front (tc ++ g ++ "?"%char :: g1 ++ tx ++ g2 ++ ":"%char :: g3 ++ ty)).
  { apply front_ap; [assumption|]. destruct (gap_split g G) as [->|S].
    - apply tailok_hd; try reflexivity; discriminate.
    - apply tailok_gap; [assumption|reflexivity|reflexivity|discriminate]. }
  split; [apply F|]. split; [trivial|].
  intros g0 h s1 L H K S. rewrite (lead_nil _ _ L) by lia. cbn [app]. exists s1. split; [now left|]. intros st.
  replace ((tc ++ g ++ "?"%char :: g1 ++ tx ++ g2 ++ ":"%char :: g3 ++ ty) ++ h ++ s1)
    with (tc ++ (g ++ "?"%char :: (g1 ++ tx ++ g2 ++ (":"%char :: (g3 ++ ty ++ h ++ s1)))))
    by (rewrite <- !app_assoc; cbn [app]; rewrite <- !app_assoc; cbn [app]; now rewrite <- !app_assoc).
  cbn [lv]. quiet. apply go_alt_l. eapply go_rule; [cbn [grammar]|].
  - eapply go_seq; [apply (closed_read 5 c tc ltac:(lia) Cc []); [apply lead0|now apply stops_q|lia]|].
    eapply go_seq; [apply gows; [assumption|reflexivity]|]. eapply go_seq; [apply lit1|].
    eapply go_seq; [apply (read8 x tx Px g1 g2); trivial; [apply closing_hd; inl|]|].
    + apply stop0_gap; [assumption|]. intros ->. destruct NE as [NE|NE]; [contradiction|].
      destruct G3 as [|d g3 B G3]; [contradiction|]. cbn. right; right; left. split; [reflexivity|].
      apply blankb_spec in B. now rewrite B.
    + eapply go_seq; [apply lit1|]. now apply (read8 y ty Py g3 h).
  - reflexivity.
Qed.
End W.
