(** C10: dynaml markers, escapes and string interpolation. *)
From Coq Require Import Lia.
From Verif Require Import Core CoreFacts Str StrFacts Interp Cleanup Find DeepEq Equiv EquivFacts Unresolved PropUnresolved.

(* ------------------------------------------------------------------ *)
(** * Markers *)

Lemma enc_inj a b : VStr ("((" +++ a +++ "))")%string = VStr ("((" +++ b +++ "))")%string -> a = b.
Proof.
  intro H. assert (H' : ("((" +++ a +++ "))" = "((" +++ b +++ "))")%string) by congruence.
  apply sapp_inj_l, sapp_inj_r in H'. exact H'.
Qed.

Section Q.
Variable quote : string -> string.

(** C10: without interpolation a node is dynaml iff it is a text "((e))" whose
    inner text does not start with "!" *)
Theorem C10_dynaml : forall n e,
  embeddedDynaml quote n false = Some e <->
  val n = VStr ("((" +++ e +++ "))")%string /\ (forall r, e <> String "!" r).
Proof.
  intros n e. unfold embeddedDynaml. destruct (val n); try (split; [discriminate|intros [H _]; discriminate]).
  destruct (enclosed s) as [sub|] eqn:E.
  - apply enclosed_spec in E. subst s. destruct (hasPrefix sub "!") eqn:B.
    + split; [discriminate|]. intros [H Hn]. exfalso. apply prefix_bang in B. destruct B as [r ->].
      apply (Hn r). apply enc_inj in H. congruence.
    + split.
      * intro H. injection H as ->. split; [reflexivity|]. intros r ->.
        assert (X : hasPrefix (String "!" r) "!" = true) by (apply prefix_bang; eauto). congruence.
      * intros [H _]. apply enc_inj in H. congruence.
  - split; [discriminate|]. intros [H _].
    assert (X : enclosed s = Some e) by (apply enclosed_spec; congruence). congruence.
Qed.

(** C10: an escaped text is not evaluated, whatever the mode *)
Theorem C10_protected : forall n e interpol,
  val n = VStr ("((!" +++ e +++ "))")%string -> embeddedDynaml quote n interpol = None.
Proof.
  intros n e i H. unfold embeddedDynaml. rewrite H.
  change ("((!" +++ e +++ "))")%string with ("((" +++ String "!" e +++ "))")%string. rewrite (proj2 (enclosed_spec _ (String "!" e)) eq_refl).
  replace (hasPrefix (String "!" e) "!") with true by (symmetry; apply prefix_bang; eauto). reflexivity.
Qed.

(** C10: one "!" is removed from an escaped text, and only one *)
Theorem C10_unescape_once : forall e interpol,
  unescapeStr quote ("((!" +++ e +++ "))") interpol = ("((" +++ e +++ "))")%string.
Proof.
  intros e i. unfold unescapeStr. change ("((!" +++ e +++ "))")%string with ("((" +++ String "!" e +++ "))")%string. rewrite (proj2 (enclosed_spec _ (String "!" e)) eq_refl).
  assert (P : hasPrefix (String "!" e) "!" = true) by (apply prefix_bang; eauto). rewrite P.
  unfold sdrop. cbn [String.length]. replace (S (String.length e) - 1)%nat with (String.length e) by lia.
  change (String.substring 1 (String.length e) (String "!" e)) with (String.substring 0 (String.length e) e).
  rewrite substring_full. reflexivity.
Qed.

(** C10: any other text stays as it is (without interpolation) *)
Theorem C10_unescape_other : forall s, (forall e, s <> ("((!" +++ e +++ "))")%string) -> unescapeStr quote s false = s.
Proof.
  intros s H. unfold unescapeStr. destruct (enclosed s) as [sub|] eqn:E; [|reflexivity].
  destruct (hasPrefix sub "!") eqn:B; [|reflexivity]. exfalso.
  apply enclosed_spec in E. apply prefix_bang in B. destruct B as [r ->]. apply (H r). exact E.
Qed.

(* ------------------------------------------------------------------ *)
(** * Interpolation *)

Definition nparens (k : nat) : string := ofchars (repeat "("%char k).

Lemma schr_app s c r : ((s +++ schr c) +++ r = s +++ String c r)%string.
Proof. rewrite sapp_assoc. reflexivity. Qed.

(** consumed text of a state as long as no expression was found *)
Definition consumed (st : cstate) : string :=
  if c_start st then (c_str st +++ "((" +++ c_expr st)%string else c_str st.
Definition inv (st : cstate) (s : string) : Prop :=
  c_found st = false -> c_result st = "" /\ consumed st = s /\
    (c_start st = false -> c_expr st = "" /\ exists p, c_str st = (p +++ nparens (c_ob st))%string) /\
    (c_start st = true -> c_expr st <> "").

Lemma nparens_snoc k : nparens (S k) = (nparens k +++ "(")%string.
Proof.
  unfold nparens. induction k as [|k IH]; [reflexivity|]. cbn [repeat ofchars string_of_list_ascii] in *.
  unfold ofchars in *. cbn [string_of_list_ascii] in *. rewrite IH at 1. reflexivity.
Qed.
Lemma nonempty_app s c : (s +++ schr c)%string <> "".
Proof. destruct s; discriminate. Qed.

Lemma substring_drop2 p q : String.length q = 2%nat ->
  String.substring 0 (String.length (p +++ q) - 2) (p +++ q) = p.
Proof.
  intro H. rewrite slength_app, H. replace (String.length p + 2 - 2)%nat with (String.length p) by lia. apply substring_app_l.
Qed.

Lemma addExpr_false r s e : e <> "" -> r = "" ->
  let '(r', s', e', f) := addExpr quote false false r s e in
  f = false -> r' = "" /\ e' = "" /\ s' = (s +++ "((" +++ e +++ ")")%string.
Proof.
  intros He ->. unfold addExpr. cbn [andb]. destruct (hasPrefix e "!") eqn:B.
  - cbn. auto.
  - destruct (String.eqb_spec e ""); [contradiction|]. cbn [andb]. cbv zeta iota beta.
    destruct (String.eqb s ""); discriminate.
Qed.

Lemma conv_step st s c : inv st s -> inv (conv1 quote false st c) (s +++ schr c).
Proof.
  unfold inv. destruct st as [mask q start ob lvl expr str result found]. intros H.
  cbn [c_found c_result c_start c_expr c_str c_ob] in *. unfold conv1.
  destruct start.
  - destruct q.
    + destruct (if Ascii.eqb c """" then _ else _) as [q' m']. cbn. intro F. destruct (H F) as [Hr [Hc _]]. cbn in Hc.
      split; [exact Hr|]. unfold consumed in *. cbn in *. split; [|split; [discriminate|intros _; apply nonempty_app]].
      rewrite <- Hc. rewrite !sapp_assoc. reflexivity.
    + destruct (Ascii.eqb_spec c "(") as [->|N1].
      { cbn. intro F. destruct (H F) as [Hr [Hc _]]. unfold consumed in *. cbn in *.
        split; [exact Hr|]. split; [|split; [discriminate|intros _; apply nonempty_app]].
        rewrite <- Hc. rewrite !sapp_assoc. reflexivity. }
      destruct (Ascii.eqb_spec c ")") as [->|N2].
      { destruct lvl as [|lvl].
        - destruct (Nat.eqb (S ob) 2).
          + assert (A := addExpr_false result str expr).
            destruct (addExpr quote false false result str expr) as [[[r' s'] e'] f].
            cbn. intro F. apply orb_false_iff in F. destruct F as [F1 F2]. destruct (H F2) as [Hr [Hc [_ He]]].
            destruct (A (He eq_refl) Hr F1) as [-> [-> ->]]. unfold consumed in *. cbn in *.
            split; [reflexivity|]. split; [|split; [intros _; split; [reflexivity|]|discriminate]].
            * rewrite <- Hc. rewrite !sapp_assoc. reflexivity.
            * eexists. symmetry. apply sapp_nil_r.
          + cbn. intro F. destruct (H F) as [Hr [Hc _]]. unfold consumed in *. cbn in *.
            split; [exact Hr|]. split; [|split; [discriminate|intros _; apply nonempty_app]].
            rewrite <- Hc. rewrite !sapp_assoc. reflexivity.
        - cbn. intro F. destruct (H F) as [Hr [Hc _]]. unfold consumed in *. cbn in *.
          split; [exact Hr|]. split; [|split; [discriminate|intros _; apply nonempty_app]].
          rewrite <- Hc. rewrite !sapp_assoc. reflexivity. }
      destruct (Ascii.eqb c """"); cbn; intro F; destruct (H F) as [Hr [Hc _]]; unfold consumed in *; cbn in *;
        (split; [exact Hr|]; split; [|split; [discriminate|intros _; apply nonempty_app]];
         rewrite <- Hc; rewrite !sapp_assoc; reflexivity).
  - destruct (Ascii.eqb_spec c "(") as [->|N1].
    + cbn. intro F. destruct (H F) as [Hr [Hc [Hs _]]]. destruct (Hs eq_refl) as [He [p Hp]]. unfold consumed in *. cbn in *.
      split; [exact Hr|]. split; [congruence|]. split; [intros _; split; [exact He|]|discriminate].
      exists p. fold (ofchars (repeat "("%char ob)). fold (nparens ob).
      change (String "(" (nparens ob)) with (nparens (S ob)). rewrite Hp, nparens_snoc. apply sapp_assoc.
    + destruct (Nat.leb_spec 2 ob) as [L|L].
      * cbn. intro F. destruct (H F) as [Hr [Hc [Hs _]]]. destruct (Hs eq_refl) as [He [p Hp]]. unfold consumed in *. cbn in *.
        split; [exact Hr|]. split; [|split; [discriminate|intros _; discriminate]].
        destruct ob as [|[|k]]; try lia. rewrite !nparens_snoc in Hp. rewrite sapp_assoc in Hp. cbn in Hp.
        rewrite <- sapp_assoc in Hp. subst s. rewrite Hp.
        change (String "(" (String "(" (schr c)))%string with ("((" +++ schr c)%string.
        rewrite substring_drop2 by reflexivity. rewrite !sapp_assoc. reflexivity.
      * cbn. intro F. destruct (H F) as [Hr [Hc [Hs _]]]. destruct (Hs eq_refl) as [He [p Hp]]. unfold consumed in *. cbn in *.
        split; [exact Hr|]. split; [congruence|]. split; [intros _; split; [exact He|]|discriminate].
        eexists. symmetry. apply sapp_nil_r.
Qed.

Lemma conv_fold w : forall st s, inv st s -> inv (fold_left (conv1 quote false) (chars w) st) (s +++ w).
Proof.
  induction w as [|c w IH]; intros st s H; [cbn; rewrite sapp_nil_r; exact H|].
  unfold chars in *. cbn [list_ascii_of_string fold_left]. rewrite <- schr_app. apply IH. apply conv_step, H.
Qed.

Lemma conv_dichotomy s u : (exists t, convertToExpression quote s u = (Some t, None)) \/
  (exists e, convertToExpression quote s u = (None, Some e)).
Proof.
  unfold convertToExpression. destruct (addExpr quote true u _ _ _) as [[[r s'] e] f].
  destruct (f || _); eauto.
Qed.

(** C10: interpolation either finds an expression or leaves the text exactly as it is *)
Theorem C10_literal : forall s t, convertToExpression quote s false = (Some t, None) -> t = s.
Proof.
  intros s t. unfold convertToExpression.
  assert (I : inv (fold_left (conv1 quote false) (chars s) conv0) ("" +++ s)).
  { apply conv_fold. intros _. cbn. split; [reflexivity|]. split; [reflexivity|]. split; [|discriminate].
    intros _. split; [reflexivity|]. exists "". reflexivity. }
  cbn [String.append] in I. set (st := fold_left _ _ _) in *. unfold inv in I.
  destruct (c_found st) eqn:F.
  - destruct (addExpr quote true false _ _ _) as [[[r s'] e] f]. rewrite orb_true_r. discriminate.
  - destruct (I eq_refl) as [Hr [Hc [Hs _]]]. rewrite Hr. unfold consumed in Hc.
    destruct (c_start st).
    + cbn. cbn in Hc. intro H. injection H as H. rewrite <- H. exact Hc.
    + destruct (Hs eq_refl) as [He _]. rewrite He. cbn. intro H. injection H as H. rewrite <- H. exact Hc.
Qed.

(** a text without "((" *)
Definition notOpen (s : string) : Prop := forall x y, s <> (x +++ "((" +++ y)%string.
(** inner expression text: scanned with parentheses depth and string literals;
    no closing parenthesis outside of strings at depth 0 *)
Fixpoint scan (lvl : nat) (inq mask : bool) (e : string) : bool :=
  match e with
  | EmptyString => Nat.eqb lvl 0 && negb inq
  | String c r =>
      if inq then
        if Ascii.eqb c """" then scan lvl mask false r
        else if Ascii.eqb c "\" then scan lvl true (negb mask) r
        else scan lvl true false r
      else if Ascii.eqb c "(" then scan (S lvl) false false r
      else if Ascii.eqb c ")" then match lvl with O => false | S l => scan l false false r end
      else if Ascii.eqb c """" then scan lvl true false r
      else scan lvl false false r
  end.

(** literal text is copied *)
Fixpoint texty (k : nat) (w : string) : option nat :=
  match w with
  | EmptyString => Some k
  | String c r => if Ascii.eqb c "(" then match k with O => texty 1 r | _ => None end else texty 0 r
  end.
Lemma texty_step u k w k' : texty k w = Some k' -> (k <= 1)%nat ->
  forall str result found,
  fold_left (conv1 quote u) (chars w) (mkC false false false k 0 "" str result found) =
  mkC false false false k' 0 "" (str +++ w) result found.
Proof.
  revert k. induction w as [|c w IH]; intros k H Hk str result found.
  - cbn in H. inversion H; subst. cbn. rewrite sapp_nil_r. reflexivity.
  - unfold chars in *. cbn [list_ascii_of_string fold_left]. cbn [texty] in H. unfold conv1 at 2.
    destruct (Ascii.eqb_spec c "(") as [->|N].
    + destruct k as [|k]; [|discriminate]. cbn [Ascii.eqb]. rewrite (IH 1%nat H) by lia. rewrite schr_app. reflexivity.
    + destruct (Nat.leb_spec 2 k); [lia|]. rewrite (IH 0%nat H) by lia. rewrite schr_app. reflexivity.
Qed.
Lemma texty_notOpen w : notOpen w -> exists k, texty 0 w = Some k /\ (k <= 1)%nat.
Proof.
  intro H. assert (G : forall k, (k <= 1)%nat -> notOpen (nparens k +++ w) -> exists k', texty k w = Some k' /\ (k' <= 1)%nat).
  2: { apply (G O); [lia|exact H]. }
  clear H. induction w as [|c w IH]; intros k Hk H; [cbn; eauto|]. cbn [texty].
  destruct (Ascii.eqb_spec c "(") as [->|N].
  - destruct k as [|[|]]; [|exfalso; apply (H "" w); reflexivity|lia]. apply (IH 1%nat); [lia|exact H].
  - apply (IH 0%nat); [lia|]. intros x y E. apply (H (nparens k +++ String c x)%string y).
    cbn in E. rewrite E. rewrite !sapp_assoc. reflexivity.
Qed.
Lemma texty_end w k : texty 0 w = Some k -> (forall x, w <> (x +++ "(")%string) -> k = 0%nat.
Proof.
  assert (G : forall k0 k, texty k0 w = Some k -> (k0 = 0 \/ w <> "")%nat -> (forall x, w <> (x +++ "(")%string) -> k = 0%nat).
  2: { intros. eapply G; eauto. }
  induction w as [|c w IH]; intros k0 k' H D E.
  - cbn in H. inversion H; subst. destruct D as [D|D]; [exact D|contradiction].
  - cbn [texty] in H. destruct (Ascii.eqb_spec c "(") as [->|N].
    + destruct k0; [|discriminate]. apply (IH 1%nat k' H).
      * right. intros ->. apply (E ""). reflexivity.
      * intros x Hx. apply (E (String "(" x)). cbn. congruence.
    + apply (IH 0%nat k' H); [left; reflexivity|]. intros x Hx. apply (E (String c x)). cbn. congruence.
Qed.

Lemma scan_step u e : forall lvl inq mask expr str result found,
  scan lvl inq mask e = true -> (inq = false -> mask = false) ->
  fold_left (conv1 quote u) (chars e) (mkC mask inq true 0 lvl expr str result found) =
  mkC false false true 0 0 (expr +++ e) str result found.
Proof.
  induction e as [|c e IH]; intros lvl inq mask expr str result found H M.
  - cbn in H. apply andb_prop in H. destruct H as [H1 H2]. apply Nat.eqb_eq in H1. apply negb_true_iff in H2. subst.
    rewrite (M eq_refl). cbn. rewrite sapp_nil_r. reflexivity.
  - unfold chars in *. cbn [list_ascii_of_string fold_left]. cbn [scan] in H. unfold conv1 at 2.
    destruct inq.
    + destruct (Ascii.eqb c """").
      * destruct mask; (rewrite (IH _ _ _ _ _ _ _ H) by auto); rewrite schr_app; reflexivity.
      * destruct (Ascii.eqb c "\"); (rewrite (IH _ _ _ _ _ _ _ H) by discriminate); rewrite schr_app; reflexivity.
    + rewrite (M eq_refl) in *. destruct (Ascii.eqb_spec c "(") as [->|N1].
      * cbn. rewrite (IH _ _ _ _ _ _ _ H) by auto. rewrite schr_app. reflexivity.
      * destruct (Ascii.eqb_spec c ")") as [->|N2].
        -- destruct lvl; [discriminate|]. cbn. rewrite (IH _ _ _ _ _ _ _ H) by auto. rewrite schr_app. reflexivity.
        -- destruct (Ascii.eqb c """"); cbn; (rewrite (IH _ _ _ _ _ _ _ H) by auto || rewrite (IH _ _ _ _ _ _ _ H) by discriminate);
             rewrite schr_app; reflexivity.
Qed.

(** first character after "((" *)
Definition starter (c : ascii) : Prop := c <> "("%char.

Lemma open_step u c str result found k : starter c -> (2 <= k)%nat ->
  conv1 quote u (mkC false false false k 0 "" str result found) c =
  mkC false false true 0 0 (schr c) (String.substring 0 (String.length str - 2) str) result found.
Proof.
  intros N K. unfold conv1. destruct (Ascii.eqb_spec c "("); [contradiction|].
  destruct (Nat.leb_spec 2 k); [reflexivity|lia].
Qed.

Lemma chars_app a b : chars (a +++ b) = chars a ++ chars b.
Proof. unfold chars. induction a; cbn; congruence. Qed.

(** the loop over  a((ce))  *)
Lemma segment u a c e str result found :
  notOpen a -> (forall x, a <> (x +++ "(")%string) -> starter c -> scan 0 false false e = true ->
  fold_left (conv1 quote u) (chars (a +++ "((" +++ String c e +++ "))"))
    (mkC false false false 0 0 "" str result found) =
  let '(r', s', e', f) := addExpr quote false u result (str +++ a) (String c e +++ ")") in
  mkC false false false 0 0 e' s' r' (f || found).
Proof.
  intros Ha Hend Hc He. destruct (texty_notOpen a Ha) as [k [Hk _]]. assert (k = 0%nat) by (eapply texty_end; eauto). subst k.
  rewrite !chars_app, !fold_left_app. rewrite (texty_step u 0 a 0 Hk) by lia.
  change (chars "((") with ["("%char; "("%char]. cbn [fold_left].
  change (conv1 quote u (mkC false false false 0 0 "" (str +++ a) result found) "(") with
         (mkC false false false 1 0 "" ((str +++ a) +++ "(") result found).
  change (conv1 quote u (mkC false false false 1 0 "" ((str +++ a) +++ "(") result found) "(") with
         (mkC false false false 2 0 "" (((str +++ a) +++ "(") +++ "(") result found).
  change (chars (String c e)) with (c :: chars e). cbn [fold_left].
  rewrite open_step by (assumption || lia).
  rewrite (sapp_assoc (str +++ a)). change ("(" +++ "(")%string with "((". rewrite substring_drop2 by reflexivity.
  rewrite (scan_step u e 0 false false) by auto. change (chars "))") with [")"%char; ")"%char]. cbn [fold_left].
  change (schr c +++ e)%string with (String c e).
  change (conv1 quote u (mkC false false true 0 0 (String c e) (str +++ a) result found) ")") with
         (mkC false false true 1 0 (String c e +++ ")") (str +++ a) result found).
  unfold conv1 at 1. cbn [Ascii.eqb Bool.eqb Nat.eqb].
  destruct (addExpr quote false u result (str +++ a) (String c e +++ ")")) as [[[r' s'] e'] f]. reflexivity.
Qed.

Lemma drop_last e : String.substring 0 (String.length (e +++ ")") - 1) (e +++ ")") = e.
Proof.
  rewrite slength_app. cbn [String.length]. replace (String.length e + 1 - 1)%nat with (String.length e) by lia. apply substring_app_l.
Qed.

(** C10: an expression inside a text becomes the concatenation of the quoted
    text before it, the expression in parentheses and the quoted text after it *)
Theorem C10_interpolate : forall a c e b,
  notOpen a -> (forall x, a <> (x +++ "(")%string) -> c <> "("%char -> c <> "!"%char ->
  scan 0 false false e = true -> notOpen b -> (forall x, quote x <> "") ->
  convertToExpression quote (a +++ "((" +++ String c e +++ "))" +++ b) false =
  (None, Some ((if String.eqb a "" then "" else quote a +++ " ") +++ "( " +++ trimSpace (String c e) +++ " )" +++
               (if String.eqb b "" then "" else " " +++ quote b))%string).
Proof.
  intros a c e b Ha Hend Hc Hb He Hob Hq. unfold convertToExpression.
  replace (a +++ "((" +++ String c e +++ "))" +++ b)%string with ((a +++ "((" +++ String c e +++ "))") +++ b)%string
    by (rewrite !sapp_assoc; reflexivity).
  rewrite chars_app, fold_left_app. unfold conv0.
  rewrite (segment false a c e "" "" false Ha Hend Hc He). change ("" +++ a)%string with a.
  set (X := ("( " +++ trimSpace (String c e) +++ " )")%string).
  set (R1 := ((if String.eqb a "" then "" else quote a +++ " ") +++ X)%string).
  assert (E1 : addExpr quote false false "" a (String c e +++ ")") = (R1, "", "", true)).
  { assert (B : hasPrefix (String c e +++ ")") "!" = false).
    { destruct (hasPrefix (String c e +++ ")") "!") eqn:E; [|reflexivity]. apply prefix_bang in E. destruct E as [r E].
      cbn in E. inversion E. congruence. }
    unfold addExpr. cbn [andb]. rewrite B.
    replace (String.eqb (String c e +++ ")") "") with false by reflexivity. cbn [andb]. rewrite drop_last.
    fold X. assert (XN : String.eqb X "" = false) by reflexivity. rewrite XN. unfold R1.
    destruct (String.eqb a ""); [reflexivity|]. cbn [String.eqb String.append negb].
    destruct (String.eqb_spec (quote a) "") as [E|]; [exfalso; exact (Hq a E)|]. reflexivity. }
  rewrite E1. clear E1. cbn [orb].
  assert (RN : String.eqb R1 "" = false).
  { apply String.eqb_neq. unfold R1. destruct (if String.eqb a "" then "" else quote a +++ " ")%string; discriminate. }
  destruct (texty_notOpen b Hob) as [k [Hk Hk1]]. rewrite (texty_step false 0 b k Hk) by lia.
  cbn [c_start c_str c_expr c_result c_found]. change ("" +++ b)%string with b.
  assert (E2 : addExpr quote true false R1 b "" =
     ((R1 +++ (if String.eqb b "" then "" else " " +++ quote b))%string, "", "", true)).
  { unfold addExpr. replace (hasPrefix "" "!") with false by reflexivity. cbn [andb]. cbv beta iota zeta. cbn [String.eqb andb negb orb].
    assert (P0 : hasPrefix "" "!" = false) by reflexivity. rewrite ?P0. cbv beta iota zeta. cbn [String.eqb andb negb orb].
    rewrite ?RN. cbn [orb]. rewrite ?andb_false_r. rewrite sapp_nil_r. destruct (String.eqb b ""); [rewrite sapp_nil_r; reflexivity|].
    rewrite sapp_assoc. reflexivity. }
  rewrite E2. cbn [orb]. f_equal. f_equal. unfold R1, X. rewrite !sapp_assoc. reflexivity.
Qed.

(** C10: an escaped expression inside a text is protected ... *)
Theorem C10_interpolate_protected : forall a e b,
  notOpen a -> (forall x, a <> (x +++ "(")%string) -> scan 0 false false e = true -> notOpen b ->
  convertToExpression quote (a +++ "((!" +++ e +++ "))" +++ b) false =
  (Some (a +++ "((!" +++ e +++ "))" +++ b)%string, None).
Proof.
  intros a e b Ha Hend He Hb. unfold convertToExpression.
  replace (a +++ "((!" +++ e +++ "))" +++ b)%string with ((a +++ "((" +++ String "!" e +++ "))") +++ b)%string
    by (rewrite !sapp_assoc; reflexivity).
  rewrite chars_app, fold_left_app. unfold conv0.
  rewrite (segment false a "!" e "" "" false Ha Hend) by (assumption || discriminate). cbn [String.append].
  assert (E : addExpr quote false false "" a (String "!" (e +++ ")")) =
    ("", (a +++ "((" +++ String "!" (e +++ ")") +++ ")")%string, "", false)).
  { assert (P : hasPrefix (String "!" (e +++ ")")) "!" = true) by (apply prefix_bang; eauto).
    unfold addExpr. cbn [andb]. cbv beta iota. rewrite P. reflexivity. }
  rewrite E.
  destruct (texty_notOpen b Hb) as [k [Hk Hk1]]. cbn [orb]. rewrite (texty_step false 0 b k Hk) by lia.
  cbn. f_equal. f_equal. rewrite !sapp_assoc. cbn. rewrite !sapp_assoc. reflexivity.
Qed.

(** ... and loses one "!" in the final document *)
Theorem C10_interpolate_unescape : forall a e b,
  notOpen a -> (forall x, a <> (x +++ "(")%string) -> scan 0 false false e = true -> notOpen b ->
  convertToExpression quote (a +++ "((!" +++ e +++ "))" +++ b) true =
  (Some (a +++ "((" +++ e +++ "))" +++ b)%string, None).
Proof.
  intros a e b Ha Hend He Hb. unfold convertToExpression.
  replace (a +++ "((!" +++ e +++ "))" +++ b)%string with ((a +++ "((" +++ String "!" e +++ "))") +++ b)%string
    by (rewrite !sapp_assoc; reflexivity).
  rewrite chars_app, fold_left_app. unfold conv0.
  rewrite (segment true a "!" e "" "" false Ha Hend) by (assumption || discriminate). cbn [String.append].
  assert (E : addExpr quote false true "" a (String "!" (e +++ ")")) =
    ("", (a +++ "((" +++ (e +++ ")") +++ ")")%string, "", false)).
  { unfold addExpr. replace (hasPrefix (String "!" (e +++ ")")) "!") with true by (symmetry; apply prefix_bang; eauto).
    cbn [andb]. unfold sdrop. cbn [String.length]. rewrite Nat.sub_succ, Nat.sub_0_r.
    change (String.substring 1 (String.length (e +++ ")")) (String "!" (e +++ ")"))) with
           (String.substring 0 (String.length (e +++ ")")) (e +++ ")")).
    rewrite substring_full. reflexivity. }
  rewrite E. destruct (texty_notOpen b Hb) as [k [Hk Hk1]]. cbn [orb]. rewrite (texty_step true 0 b k Hk) by lia.
  cbn. f_equal. f_equal. rewrite !sapp_assoc. cbn. rewrite !sapp_assoc. reflexivity.
Qed.

(** C10, what does not hold: an expression starting with a string literal directly
    after "((" is not recognized, because the first character is not scanned *)
Theorem C10_interpolate_refuted :
  convertToExpression quote "x((""a""))" false = (Some "x((""a""))", None).
Proof. reflexivity. Qed.
End Q.

(* ------------------------------------------------------------------ *)
(** * Whole documents *)

(** Escaping as a user would write it: "((e))" becomes "((!e))", a key starting
    with "<<" gets a "!" behind it; at every position of the document. *)
Definition escS (s : string) : string :=
  match enclosed s with Some e => ("((!" +++ e +++ "))")%string | None => s end.
Definition escK (k : string) : string := if hasPrefix k "<<" then ("<<!" +++ sdrop 2 k)%string else k.
Fixpoint escapeN (n : node) : node :=
  match n with
  | mkNode v a s t r =>
      mkNode (match v with
              | VStr x => VStr (escS x)
              | VList l => VList (map escapeN l)
              | VMap m => VMap (mof (map (fun p => match p with (k, e) => (escK k, escapeN e) end) m))
              | _ => v
              end) a s t r
  end.

Lemma unesc_escK k : unescapeKey (escK k) = k.
Proof.
  unfold escK. destruct (hasPrefix k "<<") eqn:E.
  - apply hasPrefix_spec in E. destruct E as [r ->]. unfold sdrop.
    change (String.length ("<<" +++ r)) with (S (S (String.length r))).
    replace (S (S (String.length r)) - 2)%nat with (String.length r) by lia.
    change (String.substring 2 (String.length r) ("<<" +++ r)) with (String.substring 0 (String.length r) r).
    rewrite substring_full. unfold unescapeKey.
    replace (hasPrefix ("<<!" +++ r) "<<!") with true by (symmetry; apply hasPrefix_spec; eauto).
    unfold sdrop. change (String.length ("<<!" +++ r)) with (S (S (S (String.length r)))).
    replace (S (S (S (String.length r))) - 3)%nat with (String.length r) by lia.
    change (String.substring 3 (String.length r) ("<<!" +++ r)) with (String.substring 0 (String.length r) r).
    rewrite substring_full. reflexivity.
  - unfold unescapeKey. destruct (hasPrefix k "<<!") eqn:E1.
    + apply hasPrefix_spec in E1. destruct E1 as [r ->].
      assert (X : hasPrefix ("<<!" +++ r) "<<" = true) by (apply hasPrefix_spec; exists ("!" +++ r)%string; reflexivity). congruence.
    + destruct (hasPrefix k (MERGEKEY +++ "!")) eqn:E2; [|reflexivity].
      apply hasPrefix_spec in E2. destruct E2 as [r ->].
      assert (X : hasPrefix ((MERGEKEY +++ "!") +++ r) "<<" = true) by (apply hasPrefix_spec; exists ("<!" +++ r)%string; reflexivity).
      congruence.
Qed.
Lemma escK_inj a b : escK a = escK b -> a = b.
Proof. intro H. rewrite <- (unesc_escK a), <- (unesc_escK b), H. reflexivity. Qed.
Lemma escaped_escK k : escapedKey (escK k) = false -> escK k = k.
Proof.
  unfold escK. destruct (hasPrefix k "<<") eqn:E; [|reflexivity]. unfold escapedKey.
  replace (hasPrefix ("<<!" +++ sdrop 2 k) "<<!") with true by (symmetry; apply hasPrefix_spec; eauto). discriminate.
Qed.

Lemma mget_escape {A B} (f : A -> B) (m : smap A) : msorted m ->
  forall k v, In (k, v) (mof (map (fun p => match p with (k, e) => (escK k, f e) end) m)) <->
    exists k0 e, In (k0, e) m /\ k = escK k0 /\ v = f e.
Proof.
  intros Hm k v. rewrite mof_in.
  - rewrite in_map_iff. split.
    + intros [[k0 e] [E Hin]]. inversion E; subst. eauto.
    + intros [k0 [e [Hin [-> ->]]]]. exists (k0, e). auto.
  - rewrite map_map. apply msorted_NoDup in Hm. unfold mkeys in Hm.
    induction m as [|[k0 e] m IH]; [constructor|]. cbn in *. inversion Hm; subst. constructor; [|apply IH; assumption].
    rewrite in_map_iff. intros [[k1 e1] [E Hin]]. cbn in E. apply escK_inj in E. subst k1.
    apply H1. apply in_map_iff. exists (k0, e1). auto.
Qed.

(** equal data, whatever the annotations *)
Inductive same_value : value -> value -> Prop :=
| SV_list l l' : Forall2 (fun a b => same_value (val a) (val b)) l l' -> same_value (VList l) (VList l')
| SV_map m m' : Forall2 (fun a b => fst a = fst b /\ same_value (val (snd a)) (val (snd b))) m m' -> same_value (VMap m) (VMap m')
| SV_leaf v : (forall l, v <> VList l) -> (forall m, v <> VMap m) -> same_value v v.

Section Doc.
Variable quote : string -> string.

(** C10: escaping a document (below the root) and producing the final document
    gives back the same data: exactly one level of escapes is removed, at every
    depth and in every key *)
Theorem C10_roundtrip : forall n, wfN n -> same_value (val (unescape1 quote false (escapeN n))) (val n).
Proof.
  intro n. induction n as [v a s t r IH] using node_indT. intro W. apply wfN_val in W. cbn [val] in W.
  destruct v; cbn [escapeN unescape1 val unescapeDynaml node_subT] in *;
    try (apply SV_leaf; intros; discriminate).
  - unfold unescapeDynaml. cbn [val].
    assert (E : unescapeStr quote (escS s0) false = s0).
    { unfold escS. destruct (enclosed s0) as [e|] eqn:E.
      - apply enclosed_spec in E. subst s0. apply C10_unescape_once.
      - unfold unescapeStr. rewrite E. reflexivity. }
    destruct (enclosed (escS s0)) as [sub|] eqn:Es.
    + destruct (hasPrefix sub "!") eqn:B.
      * cbn [newNode val massage]. rewrite E. apply SV_leaf; intros; discriminate.
      * cbn [val]. unfold unescapeStr in E. rewrite Es, B in E. rewrite E. apply SV_leaf; intros; discriminate.
    + rewrite E. destruct (String.eqb_spec s0 (escS s0)) as [<-|].
      * apply SV_leaf; intros; discriminate.
      * cbn [newNode val massage]. apply SV_leaf; intros; discriminate.
  - apply wf_list in W. constructor. induction IH as [|x l Hx _ IHl]; [constructor|]. inversion W; subst. cbn [map]. constructor; auto.
  - apply wf_map in W. destruct W as [Hs W]. unfold unescapeDynaml. cbn [val].
    set (me := map (fun p => match p with (k, e) => (k, unescape1 quote false e) end)
                   (mof (map (fun p => match p with (k, e) => (escK k, escapeN e) end) m))).
    assert (In_me : forall k v, In (k, v) me <-> exists k0 e, In (k0, e) m /\ k = escK k0 /\ v = unescape1 quote false (escapeN e)).
    { intros k v. unfold me. rewrite in_map_iff. split.
      - intros [[k1 e1] [E Hin]]. inversion E; subst. apply mget_escape in Hin; [|exact Hs].
        destruct Hin as [k0 [e [Hin [-> ->]]]]. eauto.
      - intros [k0 [e [Hin [-> ->]]]]. exists (escK k0, escapeN e). split; [reflexivity|]. apply mget_escape; eauto. }
    assert (S_me : msorted me).
    { unfold me. assert (Hm := mof_sorted (map (fun p => match p with (k, e) => (escK k, escapeN e) end) m)).
      revert Hm. generalize (mof (map (fun p => match p with (k, e) => (escK k, escapeN e) end) m)). clear.
      intros q Hq. eapply (msorted_keys_eq q); [|exact Hq]. unfold mkeys. rewrite map_map. apply map_ext. intros [k e]. reflexivity. }
    set (target := map (fun p => (fst p, unescape1 quote false (escapeN (snd p)))) m).
    assert (S_t : msorted target).
    { eapply (msorted_keys_eq m); [|exact Hs]. unfold mkeys, target. rewrite map_map. reflexivity. }
    assert (In_t : forall k v, In (k, v) target <-> exists e, In (k, e) m /\ v = unescape1 quote false (escapeN e)).
    { intros k v. unfold target. rewrite in_map_iff. split.
      - intros [[k1 e1] [E Hin]]. inversion E; subst. eauto.
      - intros [e [Hin ->]]. exists (k, e). auto. }
    assert (G : val (if existsb (fun p => escapedKey (fst p)) me
              then newNode (VMap (mof (map (fun p => (unescapeKey (fst p), snd p)) me))) s
              else mkNode (VMap me) a s t r) = VMap target).
    { destruct (existsb (fun p => escapedKey (fst p)) me) eqn:Ex.
      - cbn [newNode val massage]. f_equal. apply msorted_in_ext; [apply mof_sorted|exact S_t|].
        intros k v. rewrite mof_in.
        + rewrite in_map_iff, In_t. split.
          * intros [[k1 v1] [E Hin]]. cbn in E. inversion E; subst. apply In_me in Hin.
            destruct Hin as [k0 [e [Hin [-> ->]]]]. rewrite unesc_escK. eauto.
          * intros [e [Hin ->]]. exists (escK k, unescape1 quote false (escapeN e)). cbn. rewrite unesc_escK.
            split; [reflexivity|]. apply In_me. eauto.
        + rewrite map_map. cbn [fst].
          assert (Nd := msorted_NoDup _ S_me). unfold mkeys in Nd.
          assert (Img : forall x, In x me -> exists k0, fst x = escK k0).
          { intros [k1 v1] Hin. apply In_me in Hin. destruct Hin as [k0 [e [_ [-> _]]]]. eexists; reflexivity. }
          clear - Nd Img. induction me as [|[k1 v1] me IH]; [constructor|]. cbn in *. inversion Nd; subst.
          constructor; [|apply IH; [assumption|intros; apply Img; auto]].
          rewrite in_map_iff. intros [[k2 v2] [E Hin]]. cbn in E.
          destruct (Img (k1, v1) (or_introl eq_refl)) as [a1 E1]. destruct (Img (k2, v2) (or_intror Hin)) as [a2 E2].
          cbn in E1, E2. subst k1 k2. rewrite !unesc_escK in E. subst a2.
          apply H1. apply in_map_iff. exists (escK a1, v2). auto.
      - cbn [val]. f_equal. apply msorted_in_ext; [exact S_me|exact S_t|].
        intros k v. rewrite In_me, In_t.
        assert (Id : forall k0 e, In (k0, e) m -> escK k0 = k0).
        { intros k0 e Hin. apply escaped_escK. rewrite <- not_true_iff_false. intro X. rewrite <- not_true_iff_false in Ex.
          apply Ex. apply existsb_exists. exists (escK k0, unescape1 quote false (escapeN e)). split; [apply In_me; eauto|exact X]. }
        split.
        + intros [k0 [e [Hin [-> ->]]]]. rewrite (Id _ _ Hin). eauto.
        + intros [e [Hin ->]]. exists k, e. rewrite (Id _ _ Hin). auto. }
    cbn [src]. rewrite G. constructor. unfold target. clear - IH W. induction m as [|[k x] m IHm]; [constructor|].
    inversion IH; inversion W; subst. cbn in *. constructor; [split; [reflexivity|cbn; auto]|apply IHm; assumption].
Qed.

(** C10: an escaped document contains no dynaml text and no merge key *)
Theorem C10_escaped_inert : forall n p x, wfN n -> occurs (escapeN n) p x ->
  embeddedDynaml quote x false = None /\
  forall m, val x = VMap m -> ~ In "<<" (mkeys m) /\ ~ In MERGEKEY (mkeys m).
Proof.
  intros n p. revert n. induction p as [|s0 p IH]; intros n x W H; apply wfN_val in W; destruct n as [v a s t r]; cbn [val] in W.
  - inversion H; subst. split.
    + destruct (embeddedDynaml quote _ false) as [e|] eqn:E; [|reflexivity]. apply C10_dynaml in E. destruct E as [E Hn].
      exfalso. destruct v; cbn in E; try discriminate E. unfold escS in E.
      destruct (enclosed s0) as [e0|] eqn:Ee.
      * change ("((!" +++ e0 +++ "))")%string with ("((" +++ String "!" e0 +++ "))")%string in E.
        apply enc_inj in E. apply (Hn e0). congruence.
      * assert (X : enclosed s0 = Some e) by (apply enclosed_spec; cbn; congruence). congruence.
    + intros m E. destruct v; cbn in E; try discriminate E. inversion E; subst. apply wf_map in W. destruct W as [Hs _].
      assert (K : forall k, In k (mkeys (mof (map (fun p => match p with (k, e) => (escK k, escapeN e) end) m0))) -> exists k0, k = escK k0).
      { intros k Hk. apply in_map_iff in Hk. destruct Hk as [[k1 e1] [<- Hin]]. apply mget_escape in Hin; [|exact Hs].
        destruct Hin as [k0 [e [_ [-> _]]]]. eexists; reflexivity. }
      assert (N : forall k0 y, (y = "" \/ y = "<") -> escK k0 <> ("<<" +++ y)%string).
      { intros k0 y Hy. unfold escK. destruct (hasPrefix k0 "<<") eqn:B.
        - destruct Hy as [->| ->]; cbn; intro X; inversion X.
        - intros ->. assert (X : hasPrefix ("<<" +++ y) "<<" = true) by (apply hasPrefix_spec; eauto). congruence. }
      split; intro Hk; apply K in Hk; destruct Hk as [k0 Hk].
      * apply (N k0 ""); [auto|symmetry; exact Hk].
      * apply (N k0 "<"); [auto|symmetry; exact Hk].
  - inversion H as [|n0 m k e p0 x0 Ev Hin Ho|n0 l i e p0 x0 Ev Hj Ho]; subst; cbn [escapeN val] in Ev.
    + destruct v; try discriminate Ev. inversion Ev; subst. apply wf_map in W. destruct W as [Hs W].
      apply mget_escape in Hin; [|exact Hs]. destruct Hin as [k0 [e0 [Hin [-> ->]]]].
      apply (IH e0); [|exact Ho]. rewrite Forall_forall in W. apply (W _ Hin).
    + destruct v; try discriminate Ev. inversion Ev; subst. apply wf_list in W. rewrite nth_error_map in Hj.
      destruct (nth_error l0 i) as [e0|] eqn:En; [|discriminate]. cbn in Hj. inversion Hj; subst.
      apply (IH e0); [|exact Ho]. rewrite Forall_forall in W. apply W. eapply nth_error_In; eauto.
Qed.

(** C10: the final document: every entry below the root is unescaped *)
Theorem C10_document : forall n m, val n = VMap m ->
  val (unescapeDoc quote false n) = VMap (map (fun p => (fst p, unescape1 quote false (snd p))) m).
Proof. intros [v a s t r] m E. cbn [val] in E. subst v. reflexivity. Qed.

(** C10, what does not hold: the keys of the document root are not unescaped *)
Theorem C10_root_refuted : exists n, wfN n /\
  val (unescapeDoc quote false (escapeN n)) <> val n /\ ~ same_value (val (unescapeDoc quote false (escapeN n))) (val n).
Proof.
  exists (newNode (VMap [("<<x", newNode (VInt 1) "")]) ""). split; [cbn; repeat split; intros k []|]. split.
  - cbn. intro H. discriminate H.
  - cbn. intro H. inversion H as [|? ? F|? ? Hm]; subst.
    + inversion F as [|? ? ? ? [E _]]; subst. cbn in E. discriminate E.
Qed.

(** C10, what does not hold: with control fields enabled a map with an escaped
    merge key counts as unresolved, so no path can be looked up in it *)
Theorem C10_control_refuted : exists n, wfN n /\
  find false true ["a"] (escapeN n) = FNo /\ find false true ["a"] (unescape1 quote false (escapeN n)) = FNo /\
  find false false ["a"] (escapeN n) = FOk (newNode (VInt 1) "").
Proof.
  exists (newNode (VMap [("<<x", newNode (VInt 2) ""); ("a", newNode (VInt 1) "")]) "").
  split; [cbn; repeat split; try (intros k []; fail); intros k [<-|[]]; reflexivity|]. repeat split; reflexivity.
Qed.
End Doc.

(** non-vacuity *)
Example ex_c10 : exists n, wfN n /\
  val (escapeN n) = VMap [("<<!", newNode (VStr "((!a))") ""); ("b", newNode (VList [newNode (VStr "((!!c))") ""]) "")].
Proof.
  exists (newNode (VMap [("<<", newNode (VStr "((a))") ""); ("b", newNode (VList [newNode (VStr "((!c))") ""]) "")]) "").
  split; [cbn; repeat split; try (intros k []; fail); intros k [<-|[]]; reflexivity|]. reflexivity.
Qed.
Example ex_interp : forall q, (forall x, q x <> "") ->
  convertToExpression q "f(x) = (( a ( "")"" ) ))!" false =
  (None, Some (q "f(x) = " +++ " ( a ( "")"" ) ) " +++ q "!")%string).
Proof.
  intros q Hq.
  assert (X := C10_interpolate q "f(x) = " " " "a ( "")"" ) " "!").
  assert (NO : forall w, texty 0 w <> None -> notOpen w).
  { intros w H x y ->. apply H. clear. generalize 0%nat. induction x as [|c x IH]; intros k; cbn; [destruct k; reflexivity|].
    destruct (Ascii.eqb c "("); [destruct k; [apply IH|reflexivity]|apply IH]. }
  cbn [String.append] in X. rewrite X; clear X.
  - cbn. f_equal. f_equal. rewrite sapp_assoc. reflexivity.
  - apply NO. cbn. discriminate.
  - intros x H. assert (L : String.length "f(x) = " = String.length (x +++ "(")) by congruence.
    rewrite slength_app in L. cbn in L.
    do 6 (destruct x as [|? x]; [discriminate|]; cbn in H; injection H as _ H).
    destruct x; [discriminate|]. cbn in H. inversion H. destruct x; discriminate.
  - discriminate.
  - discriminate.
  - reflexivity.
  - apply NO. cbn. discriminate.
  - exact Hq.
Qed.

Print Assumptions C10_dynaml.
Print Assumptions C10_literal.
Print Assumptions C10_interpolate.
Print Assumptions C10_interpolate_unescape.
Print Assumptions C10_roundtrip.
Print Assumptions C10_escaped_inert.
