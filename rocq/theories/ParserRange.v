(** The numbers that make the parser crash. *)
From Verif Require Import Core CoreFacts Str StrFacts DecSpec Peg PegFacts Grammar Eval Parser ParserFacts ParserRead Written ParserWords.
From Coq Require Import SpecFloat Lia PeanoNat.
Import ListNotations.

(** ** the text of a token *)
Lemma run_token f : forall p s s' toks t, run grammar f p (sing s) = RunOk s' toks -> In t toks ->
  exists w s1 s2, s = w ++ s1 /\ reads (grammar (t_rule t)) s1 s2 /\ t_begin t = length s1 /\ t_end t = length s2.
Proof.
  induction f as [|f IH]; intros p s s' toks t H I; [discriminate|].
  assert (T : forall a b x, match run grammar f a (sing s) with
       | RunOk s1 t1 => match run grammar f b s1 with RunOk s2 t2 => RunOk s2 (t1 ++ t2) | y => y end
       | y => y end = RunOk s' x -> In t x ->
     exists w s1 s2, s = w ++ s1 /\ reads (grammar (t_rule t)) s1 s2 /\ t_begin t = length s1 /\ t_end t = length s2).
  { intros a b x Q J. destruct (run grammar f a (sing s)) as [| |s1 t1] eqn:R1; try discriminate.
    pose proof R1 as X. apply run_suffix in X. destruct X as [w1 [v1 [E ->]]].
    destruct (run grammar f b (sing v1)) as [| |s2 t2] eqn:R2; try discriminate. inversion Q; subst x s2. apply in_app_or in J.
    destruct J as [J|J].
    - eapply IH; eassumption.
    - destruct (IH _ _ _ _ _ R2 J) as [w [u [v [E2 Z]]]]. exists (w1 ++ w), u, v. split; [|assumption].
      rewrite E, E2. now rewrite app_assoc. }
  destruct p; cbn [run] in H.
  - inversion H; subst. contradiction.
  - destruct (eat _ _); inversion H; subst; contradiction.
  - destruct (sing s); [discriminate|]. destruct (runeIn _ _); inversion H; subst; contradiction.
  - destruct (sing s); inversion H; subst; contradiction.
  - eapply T; eassumption.
  - destruct (run grammar f p1 (sing s)) as [| |s1 t1] eqn:R1; try discriminate.
    + eapply IH; eassumption.
    + inversion H; subst. eapply IH; eassumption.
  - destruct (run grammar f p (sing s)) as [| |s1 t1] eqn:R1; try discriminate.
    + inversion H; subst. contradiction.
    + apply (T p (PStar p) toks); [|assumption]. rewrite R1. exact H.
  - eapply T; eassumption.
  - destruct (run grammar f p (sing s)) as [| |s1 t1] eqn:R1; try discriminate; inversion H; subst; [contradiction|].
    eapply IH; eassumption.
  - destruct (run grammar f p (sing s)) as [| |s1 t1] eqn:R1; try discriminate; inversion H; subst. contradiction.
  - destruct (run grammar f (grammar r) (sing s)) as [| |s1 t1] eqn:R1; try discriminate. inversion H; subst.
    apply in_app_or in I. destruct I as [I|[<-|[]]]; [eapply IH; eassumption|].
    pose proof R1 as X. apply run_suffix in X. destruct X as [w1 [v1 [E ->]]]. inversion H.
    exists [], s, v1. split; [reflexivity|]. cbn. rewrite !sing_len. split; [now exists f, t1|]. now split.
Qed.

(** ** the text of a number *)
Lemma nums_inv s s' : reads (PSeq (PSet [("0"%char, "9"%char)]) (PStar (PSet [("0"%char, "9"%char)]))) s s' ->
  exists ds, s = ds ++ s' /\ digitsOf ds.
Proof.
  intros R. apply reads_seq_inv in R. destruct R as [s1 [R1 R2]]. apply reads_set_inv in R1. destruct R1 as [c [-> C]].
  apply reads_many_inv in R2. destruct R2 as [w [-> F]]. exists (c :: w). split; [reflexivity|]. split; [discriminate|].
  constructor; [now rewrite <- set_num|]. eapply Forall_impl; [|exact F]. intros a A. now rewrite <- set_num.
Qed.
Lemma number_text s s' : reads (grammar R_Number) s s' -> exists fl w, s = w ++ s' /\ numeral fl w.
Proof.
  cbn [grammar]. intros R. apply reads_seq_inv in R. destruct R as [s1 [R1 R]].
  apply reads_seq_inv in R. destruct R as [s2 [R2 R]]. apply reads_set_inv in R2. destruct R2 as [d [-> D]].
  apply reads_seq_inv in R. destruct R as [s3 [R3 R]]. apply reads_many_inv in R3. destruct R3 as [ds [-> Ds]].
  apply reads_seq_inv in R. destruct R as [s4 [R4 R]]. apply reads_seq_inv in R. destruct R as [s5 [R5 R6]].
  assert (E6 : s5 = s').
  { destruct R6 as [[|f] [t H]]; [discriminate|]. cbn [run] in H. destruct (run grammar f (PLit "::") (sing s5)); try discriminate.
    inversion H as [[H1 H2]]. now apply sing_inj in H1. }
  subst s5.
  assert (N : exists neg, s = neg ++ (d :: ds) ++ s3 /\ In neg [[]; ["-"%char]]).
  { apply reads_opt_inv in R1. destruct R1 as [R1|[_ ->]].
    - apply reads_lit_inv in R1. exists ["-"%char]. split; [exact R1|right; now left].
    - exists []. split; [reflexivity|now left]. }
  destruct N as [neg [-> Ng]]. rewrite set_num in D.
  assert (Dd : Forall (fun c => isNum c = true \/ c = "_"%char) ds).
  { eapply Forall_impl; [|exact Ds]. intros c C. cbv beta in C. rewrite set_num_ in C. apply orb_true_iff in C.
    destruct C as [C|C]; [now left|right; now apply Ascii.eqb_eq]. }
  pose proof (N_int neg d ds Ng D Dd) as B0.
  assert (NoE : ~ In "e"%char (neg ++ d :: ds) /\ ~ In "E"%char (neg ++ d :: ds)).
  { assert (X : forall x, In x (neg ++ d :: ds) -> isNum x = true \/ x = "_"%char \/ x = "-"%char).
    { intros x I. apply in_app_or in I. destruct I as [I|[<-|I]].
      - cbn in Ng. destruct Ng as [<-|[<-|[]]]; [contradiction|]. destruct I as [<-|[]]. auto.
      - auto.
      - rewrite Forall_forall in Dd. destruct (Dd x I); auto. }
    split; intros I; apply X in I; destruct I as [I|[I|I]]; discriminate. }
  assert (F4 : exists fl w, neg ++ (d :: ds) ++ s3 = w ++ s4 /\ numeral fl w /\ ~ In "e"%char w /\ ~ In "E"%char w).
  { apply reads_opt_inv in R4. destruct R4 as [R4|[_ ->]].
    - apply reads_seq_inv in R4. destruct R4 as [x [Rx R4]]. apply reads_lit_inv in Rx. subst s3.
      apply nums_inv in R4. destruct R4 as [fs [-> Fs]].
      exists true, ((neg ++ d :: ds) ++ "."%char :: fs). split; [cbn; rewrite <- !app_assoc; reflexivity|].
      split; [now apply N_frac|]. destruct Fs as [_ Fs]. rewrite Forall_forall in Fs.
      split; intros I; apply in_app_or in I; (destruct I as [I|[I|I]]; [now apply NoE in I|discriminate|apply Fs in I; discriminate]).
    - exists false, (neg ++ d :: ds). split; [now rewrite <- app_assoc|]. split; assumption. }
  destruct F4 as [fl [w [E4 [Nw NE]]]]. rewrite E4.
  apply reads_opt_inv in R5. destruct R5 as [R5|[_ ->]]; [|now exists fl, w].
  apply reads_seq_inv in R5. destruct R5 as [x [Rx R5]]. apply reads_set_inv in Rx. destruct Rx as [e [-> Ee]].
  apply reads_seq_inv in R5. destruct R5 as [y [Ry R5]]. apply nums_inv in R5. destruct R5 as [es [-> Es]].
  assert (Ie : In e ["e"; "E"]%char) by (destruct e as [[] [] [] [] [] [] [] []]; try discriminate Ee; cbn; tauto).
  apply reads_opt_inv in Ry. destruct Ry as [Ry|[_ ->]].
  - apply reads_lit_inv in Ry. subst x. exists true, (w ++ e :: ["-"%char] ++ es). split; [cbn; rewrite <- app_assoc; reflexivity|].
    eapply N_exp; eauto. right; now left.
  - exists true, (w ++ e :: [] ++ es). split; [cbn; rewrite <- app_assoc; reflexivity|].
    eapply N_exp; eauto. now left.
Qed.

(** ** the crash *)
Section R.
Variable parseFloat : string -> option spec_float.
Variable path stubPath : list string.
Notation action := (action parseFloat path stubPath).
Notation exec := (exec parseFloat path stubPath).
Lemma action_range r c st : action r c st = BRange -> r = R_Number /\ number parseFloat c = None.
Proof.
  destruct r; cbn [Parser.action];
    try (intros H; repeat match type of H with
         | match ?x with _ => _ end = _ => destruct x; try discriminate H
         end; discriminate H).
  destruct (number parseFloat c); [discriminate|]. now split.
Qed.
Lemma exec_range src n toks : forall st, exec src n toks st = BRange ->
  exists t, In t toks /\ t_rule t = R_Number /\ number parseFloat (contentsOf src n t) = None.
Proof.
  induction toks as [|t toks IH]; intros st H; [discriminate|]. cbn [Parser.exec] in H.
  destruct (action (t_rule t) (contentsOf src n t) st) eqn:A; try discriminate.
  - destruct (IH _ H) as [x [I X]]. exists x. split; [now right|assumption].
  - apply action_range in A. exists t. split; [now left|assumption].
Qed.
Lemma numeral_float fl w : numeral fl w ->
  existsb (fun c => Ascii.eqb c "." || Ascii.eqb c "e" || Ascii.eqb c "E") (filter (fun c => negb (Ascii.eqb c "_")) w) = fl.
Proof.
  assert (T : forall c w1 w2, (Ascii.eqb c "." || Ascii.eqb c "e" || Ascii.eqb c "E") = true ->
    existsb (fun c => Ascii.eqb c "." || Ascii.eqb c "e" || Ascii.eqb c "E") (filter (fun c => negb (Ascii.eqb c "_")) (w1 ++ c :: w2)) = true).
  { intros c w1 w2 H. rewrite filter_app, existsb_app. apply orb_true_iff. right. cbn.
    destruct (Ascii.eqb_spec c "_") as [->|_]; [discriminate|]. cbn. now rewrite H. }
  intros N. destruct N as [neg d ds I D F|w ds N _|fl w e neg ds N Ie _ _ _].
  - apply not_true_is_false. intros H. apply existsb_exists in H. destruct H as [c [Ic C]]. apply filter_In in Ic. destruct Ic as [Ic _].
    apply in_app_or in Ic. destruct Ic as [Ic|[<-|Ic]].
    + cbn in I. destruct I as [<-|[<-|[]]]; [contradiction|]. destruct Ic as [<-|[]]. discriminate.
    + destruct d as [[] [] [] [] [] [] [] []]; try discriminate C; discriminate D.
    + rewrite Forall_forall in F. destruct (F c Ic) as [X| ->]; [|discriminate].
      destruct c as [[] [] [] [] [] [] [] []]; try discriminate C; discriminate X.
  - now apply T.
  - apply T. cbn in Ie. destruct Ie as [<-|[<-|[]]]; reflexivity.
Qed.
Lemma decimal_text ds : digitsOf ds -> exists z, decimal (ofchars ds) z.
Proof.
  intros [N F]. apply (rev_ind (fun ds => ds <> [] -> Forall (fun c => isNum c = true) ds -> exists z, decimal (ofchars ds) z)); trivial.
  - intros H. now contradiction H.
  - clear. intros c ds IH _ F. apply Forall_app in F. destruct F as [F C]. inversion C as [|? ? C1 _]; subst.
    assert (Dg : exists d, digit c d).
    { destruct c as [[] [] [] [] [] [] [] []]; try discriminate C1; eexists; constructor. }
    destruct Dg as [d Dg]. destruct ds as [|x ds].
    + exists d. cbn. now constructor.
    + destruct IH as [z Z]; [discriminate|assumption|]. exists (10 * z + d).
      replace (ofchars ((x :: ds) ++ [c])) with (ofchars (x :: ds) +++ String c "")%string; [now constructor|].
      symmetry. apply ofchars_snoc.
Qed.
Lemma number_none fl w : numeral fl w -> number parseFloat (ofchars w) = None -> noValue parseFloat fl w.
Proof.
  intros N H. unfold number in H. rewrite chars_of, (numeral_float fl w N) in H. fold (plainDigits w) in H.
  destruct fl; cbn; [destruct (parseFloat (plainDigits w)); [discriminate|reflexivity]|].
  destruct (parseInt (plainDigits w)) eqn:P; [discriminate|]. clear H.
  inversion N as [neg d ds I D F E1 E2| |]; subst. unfold plainDigits in *. rewrite filter_app in *. cbn [filter] in *.
  assert (Dn : Ascii.eqb d "_" = false) by (destruct (Ascii.eqb_spec d "_"); [subst; discriminate|reflexivity]).
  rewrite Dn in *. cbn [negb] in *. set (fs := filter (fun c => negb (Ascii.eqb c "_")) ds) in *.
  assert (Dg : digitsOf (d :: fs)).
  { split; [discriminate|]. constructor; [assumption|]. apply Forall_forall. intros x X. apply filter_In in X. destruct X as [X1 X2].
    rewrite Forall_forall in F. destruct (F x X1) as [Y| ->]; [assumption|discriminate]. }
  destruct (decimal_text _ Dg) as [z Z]. 
  assert (C : forall y, in64b y = false -> ~ in64 y).
  { intros y B [A1 A2]. unfold in64b in B. apply andb_false_iff in B. destruct B as [B|B]; apply Z.leb_gt in B; lia. }
  cbn in I. destruct I as [<-|[<-|[]]]; cbn [filter app] in *.
  - exists z. split; [now left|]. apply C. unfold parseInt in P. pose proof Z as Z'. apply parseNat_decimal in Z.
    assert (Nd : d <> "-"%char /\ d <> "+"%char) by (split; intros ->; discriminate).
    change (ofchars (d :: fs)) with (String d (ofchars fs)) in *.
    destruct (in64b z) eqn:B; [|reflexivity]. exfalso.
    destruct d as [[] [] [] [] [] [] [] []]; try discriminate D; rewrite Z, B in P; discriminate.
  - exists (- z). split; [right; exists (ofchars (d :: fs)), z; auto|]. apply C.
    change (negb (Ascii.eqb "-" "_")) with true in P. cbv iota in P.
    change (ofchars (["-"%char] ++ d :: fs)) with (String "-" (ofchars (d :: fs))) in P. unfold parseInt in P.
    apply parseNat_decimal in Z. rewrite Z in P. cbn [option_map] in P. now destruct (in64b (- z)).
Qed.
Lemma Parse_range f s : Forall isAscii s -> Parse parseFloat path stubPath f (ofchars s) = ParseRange ->
  exists a fl w b, s = a ++ w ++ b /\ numeral fl w /\ noValue parseFloat fl w.
Proof.
  intros As H. unfold Parse in H. rewrite runes_ascii in H by assumption.
  destruct (run grammar f (PRule R_Dynaml) (sing s)) as [| |s' toks] eqn:R; try discriminate.
  rewrite sing_len in H. destruct (exec (ofchars s) (length s) toks start) eqn:E; try discriminate.
  apply exec_range in E. destruct E as [t [I [T N]]].
  destruct (run_token _ _ _ _ _ _ R I) as [a [s1 [s2 [-> [Rd [B1 B2]]]]]]. rewrite T in Rd.
  destruct (number_text _ _ Rd) as [fl [w [-> Nm]]]. exists a, fl, w, s2. split; [reflexivity|]. split; [assumption|].
  apply number_none; [assumption|]. destruct t as [tr tb te]. cbn in B1, B2. subst tb te.
  now rewrite contents_ok in N.
Qed.
End R.
