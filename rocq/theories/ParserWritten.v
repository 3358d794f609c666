(** The parser reads every written expression (Written.v) as this expression. *)
From Verif Require Import Core CoreFacts Str StrFacts DecSpec Peg PegFacts Grammar Eval Parser ParserFacts ParserRead Written ParserWords ParserClean ParserLits.
From Coq Require Import SpecFloat Lia PeanoNat.
Import ListNotations.

Ltac heads := repeat match goal with H : In _ _ |- _ => cbn in H; repeat destruct H as [<-|H]; try contradiction H end.
Ltac inl := cbn; tauto.
Section W.
Variable parseFloat : string -> option spec_float.
Variable path stubPath : list string.
Notation go := (go parseFloat path stubPath).
Notation chain := (PStar (PRule R_ChainedQualifiedExpression)).
Notation lit1 := (go_lit1 parseFloat path stubPath).
Notation gows := (go_ws parseFloat path stubPath).
Notation goreq := (go_req parseFloat path stubPath).
Ltac rd L := exact (go_reads parseFloat path stubPath _ _ _ _ L).

(** ** operators *)
Definition ops (n : nat) : peg rule :=
  match n with
  | 1%nat => @@R_Multiplication // @@R_Division // @@R_Modulo
  | 2%nat => @@R_Addition // @@R_Subtraction
  | 3%nat => @@R_Comparison
  | 4%nat => @@R_LogOr // @@R_LogAnd
  | 5%nat => @@R_Level4
  | _ => @@R_Or
  end.
Definition step (n : nat) : peg rule :=
  match n with 5%nat => @@R_Concatenation | _ => @@R_req_ws ~> ops n end.
Definition loop (n : nat) : peg rule := PStar (step n).
Lemma step_fails n g s : gap g -> nb s -> (g = [] \/ fails (ops n) s) -> fails (step n) (g ++ s).
Proof.
  intros G N H.
  assert (F : fails (@@R_req_ws ~> ops n) (g ++ s)).
  { destruct (gap_split g G) as [->|S].
    - apply fails_seq_l. now apply fails_req.
    - destruct H as [->|H]; [now destruct S|]. eapply fails_seq_r; [rd (goreq g s start S N)|assumption]. }
  unfold step. repeat (destruct n as [|n]; [exact F|]). destruct n as [|n]; try exact F.
  now apply fails_rule.
Qed.
(** ** what may follow *)
Definition closing (s : text) : Prop :=
  nb s /\ (forall n, In n [1; 2; 3; 4; 5; 7]%nat -> fails (ops n) s) /\ hd_is (fun c => Ascii.eqb c "?") s = false.
Lemma closing_step s g n : closing s -> gap g -> In n [1; 2; 3; 4; 5; 7]%nat -> fails (step n) (g ++ s).
Proof. intros [N [F _]] G I. apply step_fails; auto. Qed.
Lemma closing_nil : closing [].
Proof. split; [reflexivity|]. split; [|reflexivity]. intros n I. heads; dead. Qed.
Lemma closing_hd c r : In c [")"; "]"; "}"; ","; ":"]%char -> closing (c :: r).
Proof. intros H. heads; (split; [reflexivity|]; split; [|reflexivity]; intros n I; heads; dead). Qed.
Lemma closing_dots r : closing ("."%char :: "."%char :: r).
Proof. split; [reflexivity|]. split; [|reflexivity]. intros n I. heads; dead. Qed.
Lemma closing_eq c r : c <> "="%char -> closing ("="%char :: c :: r).
Proof.
  intros N. split; [reflexivity|]. split; [|reflexivity]. intros n I.
  destruct (Nat.eq_dec n 3) as [->|D].
  - apply fails_rule. cbn [grammar]. apply fails_seq_l, fails_rule. cbn [grammar].
    apply fails_alt; [|repeat (apply fails_alt; [dead|]); dead].
    apply fails_word. intros [q Q]. cbn in Q. inversion Q; subst. contradiction.
  - heads; first [now contradiction D | dead].
Qed.
Lemma closing_bar c r : c <> "|"%char -> closing ("|"%char :: c :: r).
Proof.
  intros N. split; [reflexivity|]. split; [|reflexivity]. intros n I.
  destruct (Nat.eq_dec n 7) as [->|D].
  - apply fails_rule. cbn [grammar]. apply fails_seq_l, fails_rule. cbn [grammar].
    apply fails_alt; [|dead].
    apply fails_word. intros [q Q]. cbn in Q. inversion Q; subst. contradiction.
  - heads; first [now contradiction D | dead].
Qed.
Lemma closing_bars g r : gap g -> closing ("|"%char :: "|"%char :: g ++ "-"%char :: ">"%char :: r).
Proof.
  intros G. split; [reflexivity|]. split; [|reflexivity]. intros n I.
  destruct (Nat.eq_dec n 7) as [->|D]; [|heads; first [now contradiction D | dead]].
  apply fails_rule. cbn [grammar]. eapply fails_seq_r; [|].
  - apply reads_rule, reads_alt_l. apply (reads_lit "||").
  - destruct (gap_split g G) as [->|S]; [apply fails_seq_l; apply fails_req; reflexivity|].
    eapply fails_seq_r; [rd (goreq g ("-"%char :: ">"%char :: r) start S eq_refl)|dead].
Qed.
Lemma stop0_gap g s : gap g -> (g = [] -> stop0 s) -> stop0 (g ++ s).
Proof.
  intros G H. destruct G as [|c g B G]; [now apply H|]. cbn. left. now apply blankb_spec.
Qed.

Definition stops (n : nat) (s : text) : Prop :=
  stop0 s /\ (forall k, (1 <= k <= n)%nat -> (k <= 5)%nat -> fails (step k) s) /\
  ((6 <= n)%nat -> exists g s1, s = g ++ s1 /\ gap g /\ nb s1 /\ hd_is (fun c => Ascii.eqb c "?") s1 = false).
Lemma stops_le n m s : (n <= m)%nat -> stops m s -> stops n s.
Proof. intros L [A [B C]]. split; [assumption|]. split; [intros; apply B; lia|intros; apply C; lia]. Qed.
Lemma closing_stops n g s : gap g -> closing s -> stop0 (g ++ s) -> stops n (g ++ s).
Proof.
  intros G C H. split; [assumption|]. split.
  - intros k K1 K2. apply closing_step; trivial. cbn. lia.
  - intros _. exists g, s. destruct C as [N [_ Q]]. auto.
Qed.

(** ** the beginning of texts *)
Definition okhd (c : ascii) : bool := isWord c || isOne ["034"; "~"; "$"; "("; "["; "{"; "."; "-"; "*"; "!"; "|"]%char c.
Definition starter (c : ascii) (r : text) : bool :=
  isWord c || isOne ["034"; "~"; "$"; "("; "["; "{"; "."]%char c ||
  (Ascii.eqb c "-" && hd_is isNum r) || (Ascii.eqb c "*" && hd_is (fun d => negb (blankb d)) r) ||
  (Ascii.eqb c "!" && hd_is (fun d => negb (Ascii.eqb d "=")) r).
Definition startOK (t : text) : Prop := match t with c :: r => starter c r = true | [] => False end.
Lemma hd_app p (t s : text) : hd_is p t = true -> hd_is p (t ++ s) = true.
Proof. now destruct t. Qed.
Lemma startOK_app t s : startOK t -> startOK (t ++ s).
Proof.
  destruct t as [|c r]; [contradiction|]. cbn. unfold starter. intros H. rewrite !orb_true_iff, !andb_true_iff in *.
  pose proof (hd_app isNum r s). pose proof (hd_app (fun d => negb (blankb d)) r s). pose proof (hd_app (fun d => negb (Ascii.eqb d "=")) r s). tauto.
Qed.
Lemma startOK_hd t : startOK t -> hd_is okhd t = true /\ hd_is (fun c => Ascii.eqb c "|") t = false.
Proof.
  destruct t as [|c r]; [contradiction|]. cbn. unfold starter, okhd. intros H.
  rewrite !orb_true_iff, !andb_true_iff in H. destruct H as [[[[H|H]|[H _]]|[H _]]|[H _]];
    destruct c as [[] [] [] [] [] [] [] []]; try discriminate H; split; reflexivity.
Qed.
Lemma startOK_ops n t : startOK t -> In n [1; 2; 3; 4]%nat -> fails (ops n) t.
Proof.
  destruct t as [|c r]; [contradiction|]. cbn [startOK]. unfold starter. intros H I.
  rewrite !orb_true_iff, !andb_true_iff in H. destruct H as [[[[H|H]|[H X]]|[H X]]|[H X]].
  - heads; destruct c as [[] [] [] [] [] [] [] []]; try discriminate H; dead.
  - heads; destruct c as [[] [] [] [] [] [] [] []]; try discriminate H; dead.
  - apply Ascii.eqb_eq in H. subst. destruct r as [|d r]; [discriminate|]. cbn in X.
    heads; destruct d as [[] [] [] [] [] [] [] []]; try discriminate X; dead.
  - apply Ascii.eqb_eq in H. subst. destruct (Nat.eq_dec n 1) as [->|D]; [|heads; first [now contradiction D | dead]].
    apply fails_alt; [|apply fails_alt; dead]. apply fails_rule. cbn [grammar].
    eapply fails_seq_r; [rd (lit1 "*" r start)|]. apply fails_seq_l, fails_req.
    destruct r as [|d r]; [discriminate|]. cbn in X |- *. unfold nb. cbn. now destruct (blankb d).
  - apply Ascii.eqb_eq in H. subst. destruct (Nat.eq_dec n 3) as [->|D]; [|heads; first [now contradiction D | dead]]. apply fails_rule. cbn [grammar]. apply fails_seq_l, fails_rule. cbn [grammar].
    apply fails_alt; [dead|]. apply fails_alt; [|repeat (apply fails_alt; [dead|]); dead].
    apply fails_word. intros [q Q]. cbn in Q. inversion Q; subst. discriminate.
Qed.

(** a text does not begin with the word prefer *)
Definition nopref (t : text) : Prop := forall s c, hd_is isKey s = false -> blank c -> ~ startsWith (chars "prefer" ++ [c]) (t ++ s).
(** nor with an assignment to a name *)
Fixpoint skipb (s : text) : text := match s with c :: r => if blankb c then skipb r else s | [] => [] end.
Definition eqok (u : text) : bool :=
  match u with c :: r => negb (Ascii.eqb c "=") || hd_is (fun d => Ascii.eqb d "=") r | [] => true end.
Definition fol (s : text) : Prop := hd_is isWord s = false /\ eqok (skipb s) = true.
Definition noname (t : text) : Prop := forall s, fol s -> exists w v, t ++ s = w ++ v /\ Forall (fun c => isWord c = true) w /\ fol v.
Definition noscope (t : text) : Prop := forall g s, gap g -> fails (PRule R_Scoped) (g ++ t ++ s).
Record front8 (t : text) : Prop := mkF8 { f_hd : hd_is okhd t = true; f_pref : nopref t; f_name : noname t }.
Record front (t : text) : Prop := mkF { f_8 : front8 t; f_start : startOK t; f_scope : noscope t }.
Lemma okhd_nb s : hd_is okhd s = true -> nb s.
Proof. destruct s as [|c r]; [discriminate|]. unfold nb. cbn. intros H. now destruct c as [[] [] [] [] [] [] [] []]. Qed.
Lemma skipb_gap g s : gap g -> nb s -> skipb (g ++ s) = s.
Proof.
  intros G N. induction G as [|c g B G IH].
  - destruct s as [|c s]; [reflexivity|]. cbn. unfold nb in N. cbn in N. now rewrite N.
  - cbn. apply blankb_spec in B. now rewrite B.
Qed.
Lemma blank_word c : blank c -> isWord c = false /\ isKey c = false.
Proof. intros H. unfold blank in H. heads; split; reflexivity. Qed.
Lemma gap_hd p g s : gap g -> (forall c, blank c -> p c = false) -> hd_is p s = false -> hd_is p (g ++ s) = false.
Proof. intros G B H. destruct G as [|c g X G]; [assumption|]. cbn. auto. Qed.
Lemma fol_gap g s : gap g -> nb s -> hd_is isWord s = false \/ g <> [] -> eqok s = true -> fol (g ++ s).
Proof.
  intros G N W E. split; [|now rewrite skipb_gap].
  destruct G as [|c g B G]; [destruct W as [W|W]; [assumption|now contradiction W]|]. cbn. now apply blank_word.
Qed.
(** the front of a longer text *)
Lemma noscope_app t s : noscope t -> noscope (t ++ s).
Proof. intros N g u G. rewrite <- app_assoc. now apply N. Qed.
Lemma nopref_app t s : nopref t -> (forall u, hd_is isKey u = false -> hd_is isKey (s ++ u) = false) -> nopref (t ++ s).
Proof. intros N H u c K B. rewrite <- app_assoc. apply N; auto. Qed.
Lemma noname_app t s : noname t -> (forall u, fol u -> fol (s ++ u)) -> noname (t ++ s).
Proof. intros N H u F. rewrite <- app_assoc. apply N. auto. Qed.
(** [s] begins with something that ends the text before it *)
Definition tailok (s : text) : Prop :=
  s <> [] /\ hd_is isKey s = false /\ forall u, eqok (skipb (s ++ u)) = true.
Lemma front8_app t s : front8 t -> tailok s -> front8 (t ++ s).
Proof.
  intros [H P N] [E [K Q]]. split.
  - now apply hd_app.
  - apply nopref_app; [assumption|]. intros u _. now destruct s.
  - apply noname_app; [assumption|]. intros u _. split; [|apply Q]. apply hd_word. now destruct s.
Qed.
Lemma front_ap t s : front t -> tailok s -> front (t ++ s).
Proof.
  intros [F S Q] T. split; [now apply front8_app|now apply startOK_app|now apply noscope_app].
Qed.
Lemma tailok_gap g s : space g -> nb s -> (forall u, eqok (s ++ u) = true) -> s <> [] -> tailok (g ++ s).
Proof.
  intros [G N] B E X. split; [now destruct g|]. split.
  - destruct G as [|c g Bc G]; [contradiction|]. cbn. now apply blank_word.
  - intros u. rewrite <- app_assoc, skipb_gap; auto. now destruct s.
Qed.
Lemma tailok_hd c s : isKey c = false -> blankb c = false -> c <> "="%char -> tailok (c :: s).
Proof.
  intros K B N. split; [discriminate|]. split; [assumption|]. intros u. cbn. rewrite B. cbn.
  destruct (Ascii.eqb_spec c "="); [contradiction|reflexivity].
Qed.
(** fronts of single characters *)
Lemma nopref_hd c t : c <> "p"%char -> nopref (c :: t).
Proof. intros N s d _ _ [r E]. cbn in E. inversion E. contradiction. Qed.
Lemma noname_hd c t : isWord c = false -> blankb c = false -> c <> "="%char -> noname (c :: t).
Proof.
  intros W B N s F. exists [], ((c :: t) ++ s). repeat split; [constructor|cbn; assumption|].
  cbn. rewrite B. cbn. destruct (Ascii.eqb_spec c "="); [contradiction|reflexivity].
Qed.
Lemma noscope_hd t : hd_is okhd t = true -> hd_is (fun c => Ascii.eqb c "(") t = false -> noscope t.
Proof.
  intros O H g s G. apply fails_rule. cbn [grammar]. eapply fails_seq_r; [rd (gows g (t ++ s) start G (okhd_nb _ (hd_app _ t s O)))|].
  apply fails_seq_l, fails_rule. cbn [grammar]. apply fails_seq_l, fails_rule. cbn [grammar]. apply fails_lit1.
  now destruct t.
Qed.
Lemma front_hd c t : okhd c = true -> isWord c = false -> c <> "("%char -> startOK (c :: t) -> front (c :: t).
Proof.
  intros O W N S. split; [split|assumption|].
  - exact O.
  - apply nopref_hd. intros ->. discriminate.
  - apply noname_hd; [assumption|now destruct c as [[] [] [] [] [] [] [] []]|intros ->; discriminate].
  - apply noscope_hd; [assumption|]. cbn. destruct (Ascii.eqb_spec c "("); [contradiction|reflexivity].
Qed.

(** ** levels *)
Definition lv (n : nat) : peg rule :=
  PRule (match n with
         | 0%nat => R_Level0 | 1%nat => R_Level1 | 2%nat => R_Level2 | 3%nat => R_Level3 | 4%nat => R_Level4
         | 5%nat => R_Level5 | 6%nat => R_Level6 | 7%nat => R_Level7 | _ => R_Expression
         end).
(** leading blanks *)
Definition lead (n : nat) (g : text) : Prop := gap g /\ ((n <= 6)%nat -> g = []).
Definition opened (n : nat) (e : expr) (t : text) : Prop :=
  forall g0 g s1, lead n g0 -> gap g -> closing s1 -> stop0 (g ++ s1) ->
  exists s2, (s2 = s1 \/ (n <= 7)%nat /\ s2 = g ++ s1) /\ forall st, go (lv n) (g0 ++ t ++ g ++ s1) s2 st (push e st).
Definition closed (n : nat) (e : expr) (t : text) : Prop :=
  match n with
  | 0%nat => forall s st, stop0 s -> go (lv 0) (t ++ s) s st (push e st)
  | 1%nat | 2%nat | 3%nat | 4%nat | 5%nat => forall s s' st st', stops (n - 1) s -> go (loop n) s s' (push e st) st' -> go (lv n) (t ++ s) s' st st'
  | 6%nat => forall s st, stops 6 s -> go (lv 6) (t ++ s) s st (push e st)
  | 7%nat => forall g0 s s' st st', gap g0 -> stops 6 s -> go (loop 7) s s' (push e st) st' -> go (lv 7) (g0 ++ t ++ s) s' st st'
  | _ => opened n e t
  end.
(** an expression of a level can be read to the end of it *)
Lemma closed_read n e t : (n <= 7)%nat -> closed n e t -> forall g0 s st, lead n g0 -> stops n s -> (n = 7%nat -> fails (step 7) s) ->
  go (lv n) (g0 ++ t ++ s) s st (push e st).
Proof.
  intros L C g0 s st [G0 Z] S H7.
  assert (X : (1 <= n <= 5)%nat -> go (loop n) s s (push e st) (push e st)).
  { intros K. apply go_star_nil. apply S; lia. }
  destruct (Nat.le_gt_cases n 6) as [K|K].
  - rewrite (Z K). cbn [app]. destruct n as [|n]; [apply C, S|].
    do 5 (destruct n as [|n]; [apply C; [eapply stops_le; [|exact S]; lia|apply X; lia]|]).
    destruct n as [|n]; [now apply C|lia].
  - assert (n = 7)%nat by lia. subst. apply C; [assumption|eapply stops_le; [|exact S]; lia|].
    apply go_star_nil. now apply H7.
Qed.
Lemma closed_opened n e t : (n <= 7)%nat -> closed n e t -> opened n e t.
Proof.
  intros L C g0 g s1 G0 G K S. exists (g ++ s1). split; [now right|]. intros st.
  apply closed_read; trivial; [now apply closing_stops|]. intros ->. now apply closing_step; [| |inl].
Qed.
Lemma noq_Conditional e t s s2 g s1 : (forall st, go (lv 5) (t ++ s) s2 st (push e st)) -> s2 = g ++ s1 -> gap g -> nb s1 ->
  hd_is (fun c => Ascii.eqb c "?") s1 = false -> fails (PRule R_Conditional) (t ++ s).
Proof.
  intros R -> G N Q. apply fails_rule. cbn [grammar]. eapply fails_seq_r; [eapply go_reads; exact (R start)|].
  eapply fails_seq_r; [rd (gows g s1 start G N)|]. apply fails_seq_l. now apply fails_lit1.
Qed.
Lemma closed_up1 n e t : (n < 7)%nat -> startOK t -> closed n e t -> closed (S n) e t.
Proof.
  intros L F C.
  assert (R : forall s st, stops n s -> go (lv n) (t ++ s) s st (push e st)).
  { intros s st S. apply (closed_read n e t ltac:(lia) C [] s st); [split; [constructor|reflexivity]|assumption|lia]. }
  do 5 (destruct n as [|n];
    [intros s s' st st' S G; eapply go_rule0; [|intros ?; now destruct st']; eapply go_seq; [now apply R|exact G]|]).
  destruct n as [|n].
  { (* 5 -> 6 *)
    intros s st S. eapply go_rule0; [|intros ?; now destruct st]. cbn [grammar].
    pose proof (fun st => R s st (stops_le 5 6 s ltac:(lia) S)) as R5.
    destruct (proj2 (proj2 S) ltac:(lia)) as [g [s1 [E [G [N Q]]]]].
    apply go_alt_r; [|apply R5]. now apply (noq_Conditional e t s s g s1). }
  destruct n as [|n]; [|lia].
  intros g0 s s' st st' G0 S G. eapply go_rule0; [|intros ?; now destruct st']. cbn [grammar].
  eapply go_seq; [apply gows; [assumption|]|].
  { apply okhd_nb, hd_app. now apply startOK_hd. }
  eapply go_seq; [now apply R|exact G].
Qed.
Lemma noscope_lambda t s g : gap g -> startOK t -> fails (PRule R_LambdaExpr) (g ++ t ++ s).
Proof.
  intros G S. destruct (startOK_hd _ S) as [O B]. apply fails_rule. cbn [grammar].
  eapply fails_seq_r; [rd (gows g (t ++ s) start G (okhd_nb _ (hd_app _ t s O)))|].
  apply fails_seq_l, fails_rule. cbn [grammar]. apply fails_seq_l, fails_lit1. now destruct t.
Qed.
Lemma opened_up1 n e t : (n <= 7)%nat -> front t -> opened n e t -> opened (S n) e t.
Proof.
  intros L F C g0 g s1 [G0 Z] G K S.
  destruct (startOK_hd _ (f_start _ F)) as [O _].
  destruct (Nat.le_gt_cases n 5) as [N5|N5].
  { rewrite (Z ltac:(lia)). cbn [app].
    destruct (C [] g s1) as [s2 [E2 R]]; trivial; [split; [constructor|reflexivity]|]. cbn [app] in R.
    exists s2. split; [destruct E2 as [E2|[_ E2]]; [now left|right; split; [lia|assumption]]|]. intros st.
    assert (St : forall k, In k [1; 2; 3; 4; 5; 7]%nat -> fails (step k) s2).
    { intros k I. destruct E2 as [->|[_ ->]]; [apply (closing_step s1 []); trivial; constructor|now apply closing_step]. }
    destruct n as [|n]; [eapply go_rule0; [|intros ?; now destruct st]; eapply go_seq; [apply R|]; apply go_star_nil, (St 1%nat); inl|].
    destruct n as [|n]; [eapply go_rule0; [|intros ?; now destruct st]; eapply go_seq; [apply R|]; apply go_star_nil, (St 2%nat); inl|].
    destruct n as [|n]; [eapply go_rule0; [|intros ?; now destruct st]; eapply go_seq; [apply R|]; apply go_star_nil, (St 3%nat); inl|].
    destruct n as [|n]; [eapply go_rule0; [|intros ?; now destruct st]; eapply go_seq; [apply R|]; apply go_star_nil, (St 4%nat); inl|].
    destruct n as [|n]; [eapply go_rule0; [|intros ?; now destruct st]; eapply go_seq; [apply R|]; apply go_star_nil, (St 5%nat); inl|].
    destruct n as [|n]; [|lia].
    eapply go_rule0; [|intros ?; now destruct st]. cbn [grammar]. apply go_alt_r; [|apply R].
    destruct K as [N [_ Q]]. destruct E2 as [->|[_ ->]].
    - apply (noq_Conditional e t (g ++ s1) s1 [] s1); auto. constructor.
    - now apply (noq_Conditional e t (g ++ s1) (g ++ s1) g s1). }
  destruct n as [|[|[|[|[|[|[|n]]]]]]]; try lia.
  - (* 6 -> 7 *)
    destruct (C [] g s1) as [s2 [E2 R]]; trivial; [split; [constructor|reflexivity]|]. cbn [app] in R.
    exists s2. split; [destruct E2 as [E2|[_ E2]]; [now left|right; split; [lia|assumption]]|]. intros st. specialize (R st).
    eapply go_rule0; [|intros ?; now destruct st]. cbn [grammar].
    eapply go_seq; [apply gows; [assumption|apply okhd_nb, hd_app, O]|]. eapply go_seq; [exact R|].
    apply go_star_nil. change (fails (step 7) s2).
    destruct E2 as [->|[_ ->]]; [apply (closing_step s1 []); trivial; [constructor|inl]|apply closing_step; trivial; inl].
  - (* 7 -> 8 *)
    assert (n = 0)%nat by lia. subst n.
    destruct (C g0 g s1) as [s2 [E2 R]]; trivial; [split; [assumption|lia]|].
    exists s1. split; [now left|]. intros st. specialize (R st). eapply go_rule0; [|intros ?; now destruct st]. cbn [grammar].
    eapply go_seq; [apply go_alt_r; [now apply (f_scope _ F)|apply go_alt_r; [apply noscope_lambda; [assumption|apply F]|exact R]]|].
    destruct E2 as [->|[_ ->]]; [apply (gows [] s1); [constructor|apply K]|apply gows; [assumption|apply K]].
Qed.
Lemma opened_hi n e t : (8 <= n)%nat -> opened 8 e t <-> opened n e t.
Proof.
  intros L. assert (E : lv n = lv 8) by (do 8 (destruct n as [|n]; [lia|]); reflexivity).
  unfold opened. rewrite E. split; intros H g0 g s1 [G0 _] G K S.
  - destruct (H g0 g s1) as [s2 [[E2|[X _]] R]]; trivial; [split; [assumption|lia]|exists s2; auto|lia].
  - destruct (H g0 g s1) as [s2 [[E2|[X _]] R]]; trivial; [split; [assumption|lia]|exists s2; auto|lia].
Qed.
Definition PW (o : bool) (n : nat) (e : expr) (t : text) : Prop :=
  front8 t /\ ((n <= 7)%nat -> front t) /\ if o then opened n e t else closed n e t.
Lemma PW_up o n m e t : (n <= m)%nat -> PW o n e t -> PW o m e t.
Proof.
  induction 1 as [|m L IH]; [trivial|]. intros H. specialize (IH H). destruct IH as [F8 [F C]], H as [_ [F0 _]].
  split; [assumption|]. split; [intros; apply F0; lia|].
  destruct (Nat.le_gt_cases m 7) as [K|K].
  - specialize (F K). destruct o; [now apply opened_up1|].
    destruct (Nat.eq_dec m 7) as [->|D]; [|apply closed_up1; [lia|apply F|assumption]].
    change (opened 8 e t). apply opened_up1; [lia|assumption|]. apply closed_opened; [lia|assumption].
  - destruct o.
    + apply opened_hi; [lia|]. now apply opened_hi in C.
    + assert (E : forall k, (8 <= k)%nat -> closed k e t = opened k e t).
      { intros k Hk. do 8 (destruct k as [|k]; [lia|]). reflexivity. }
      rewrite E in C |- * by lia. apply opened_hi; [lia|]. now apply opened_hi in C.
Qed.
Lemma PW_open n e t : PW false n e t -> PW true n e t.
Proof.
  intros [F8 [F C]]. split; [assumption|]. split; [assumption|].
  destruct (Nat.le_gt_cases n 7) as [K|K]; [now apply closed_opened|].
  do 8 (destruct n as [|n]; [lia|]). exact C.
Qed.
(** reading a whole expression *)
Lemma read8 e t : PW true 8 e t -> forall g0 g s1 st, gap g0 -> gap g -> closing s1 -> stop0 (g ++ s1) ->
  go (PRule R_Expression) (g0 ++ t ++ g ++ s1) s1 st (push e st).
Proof.
  intros [_ [_ C]] g0 g s1 st G0 G K S. destruct (C g0 g s1) as [s2 [[->|[X _]] R]]; trivial; [split; [assumption|lia]|lia].
Qed.
End W.
