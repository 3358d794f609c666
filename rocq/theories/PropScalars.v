(** C63: the texts of YAML scalars are written and read back. *)
From Coq Require Import Lia ZifyBool.
From Verif Require Import Core Str Comparison ListFns Convert PropList PropCompare PropText2 JsonSpec Yaml YamlSpec PropYaml ScalarSpec Scalars.
Import ListNotations.
Open Scope string_scope. Open Scope list_scope.

Lemma byteof_is c v : bytev c = v -> byteof v = c.
Proof. intros <-. apply byteof_bytev. Qed.
Lemma encodes_encoded v u : encodes v u -> encoded v = Some u.
Proof.
  unfold encoded. intros [(R & a & -> & A)|[(R & a & b & -> & A & B)|[(R & N & a & b & c & -> & A & B & C)|(R & a & b & c & d & -> & A & B & C & D)]]].
  - replace ((55296 <=? v) && (v <=? 57343) || (1114111 <? v))%Z with false by (symmetry; rewrite orb_false_iff, andb_false_iff, !Z.leb_gt, Z.ltb_ge; lia).
    replace (v <=? 127)%Z with true by (symmetry; apply Z.leb_le; lia). now rewrite (byteof_is _ _ A).
  - replace ((55296 <=? v) && (v <=? 57343) || (1114111 <? v))%Z with false by (symmetry; rewrite orb_false_iff, andb_false_iff, !Z.leb_gt, Z.ltb_ge; lia).
    replace (v <=? 127)%Z with false by (symmetry; apply Z.leb_gt; lia). replace (v <=? 2047)%Z with true by (symmetry; apply Z.leb_le; lia).
    now rewrite (byteof_is _ _ A), (byteof_is _ _ B).
  - replace ((55296 <=? v) && (v <=? 57343) || (1114111 <? v))%Z with false by (symmetry; rewrite orb_false_iff, andb_false_iff, !Z.leb_gt, Z.ltb_ge; lia).
    replace (v <=? 127)%Z with false by (symmetry; apply Z.leb_gt; lia). replace (v <=? 2047)%Z with false by (symmetry; apply Z.leb_gt; lia).
    replace (v <=? 65535)%Z with true by (symmetry; apply Z.leb_le; lia). now rewrite (byteof_is _ _ A), (byteof_is _ _ B), (byteof_is _ _ C).
  - replace ((55296 <=? v) && (v <=? 57343) || (1114111 <? v))%Z with false by (symmetry; rewrite orb_false_iff, andb_false_iff, !Z.leb_gt, Z.ltb_ge; lia).
    replace (v <=? 127)%Z with false by (symmetry; apply Z.leb_gt; lia). replace (v <=? 2047)%Z with false by (symmetry; apply Z.leb_gt; lia).
    replace (v <=? 65535)%Z with false by (symmetry; apply Z.leb_gt; lia). now rewrite (byteof_is _ _ A), (byteof_is _ _ B), (byteof_is _ _ C), (byteof_is _ _ D).
Qed.
(** every character of a UTF-8 text has a code point *)
Lemma nth0 {A} (x : A) l : nth_error (x :: l) 0 = Some x. Proof. reflexivity. Qed.
Lemma rune_encodes a r : utf8Text (a :: r) -> exists v, runeAt (a :: r) = Done v /\ encodes v (firstn (width a) (a :: r)) /\ (0 <= v < 1114112)%Z.
Proof.
  intro U. inversion U as [|x l Ra H|x b l Ra Rb H|x b c l R Rc H|x b c d l R Rc Rd H]; subst.
  - unfold runeAt. rewrite (width_is a 1%nat 0 127) by (try exact Ra; cbn; tauto). unfold between in *.
    eexists; split; [reflexivity|]. rewrite Z.mod_small by lia. split; [left; split; [lia|]; exists a; split; reflexivity|lia].
  - unfold runeAt. rewrite (width_is a 2%nat 194 223) by (try exact Ra; cbn; tauto). unfold between in *. cbn [nth_error need].
    eexists; split; [reflexivity|]. cbn [firstn].
    replace (bytev a mod 32)%Z with (bytev a - 192)%Z by (symmetry; replace (bytev a) with (bytev a - 192 + 6 * 32)%Z at 1 by lia; rewrite Z.mod_add by lia; apply Z.mod_small; lia).
    replace (bytev b mod 64)%Z with (bytev b - 128)%Z by (symmetry; replace (bytev b) with (bytev b - 128 + 2 * 64)%Z at 1 by lia; rewrite Z.mod_add by lia; apply Z.mod_small; lia).
    split; [|lia]. right; left. split; [lia|]. exists a, b. repeat split; Z.div_mod_to_equations; lia.
  - unfold runeAt. rewrite (width_is a 3%nat 224 239) by (try (cbn; tauto); unfold between in *; lia). unfold between in *. cbn [nth_error need].
    eexists; split; [reflexivity|]. cbn [firstn].
    replace (bytev a mod 16)%Z with (bytev a - 224)%Z by (symmetry; replace (bytev a) with (bytev a - 224 + 14 * 16)%Z at 1 by lia; rewrite Z.mod_add by lia; apply Z.mod_small; lia).
    replace (bytev b mod 64)%Z with (bytev b - 128)%Z by (symmetry; replace (bytev b) with (bytev b - 128 + 2 * 64)%Z at 1 by lia; rewrite Z.mod_add by lia; apply Z.mod_small; lia).
    replace (bytev c mod 64)%Z with (bytev c - 128)%Z by (symmetry; replace (bytev c) with (bytev c - 128 + 2 * 64)%Z at 1 by lia; rewrite Z.mod_add by lia; apply Z.mod_small; lia).
    split; [|lia]. right; right; left. split; [lia|]. split; [lia|]. exists a, b, c. repeat split; Z.div_mod_to_equations; lia.
  - unfold runeAt. rewrite (width_is a 4%nat 240 244) by (try (cbn; tauto); unfold between in *; lia). unfold between in *. cbn [nth_error need].
    eexists; split; [reflexivity|]. cbn [firstn].
    replace (bytev a mod 8)%Z with (bytev a - 240)%Z by (symmetry; replace (bytev a) with (bytev a - 240 + 30 * 8)%Z at 1 by lia; rewrite Z.mod_add by lia; apply Z.mod_small; lia).
    replace (bytev b mod 64)%Z with (bytev b - 128)%Z by (symmetry; replace (bytev b) with (bytev b - 128 + 2 * 64)%Z at 1 by lia; rewrite Z.mod_add by lia; apply Z.mod_small; lia).
    replace (bytev c mod 64)%Z with (bytev c - 128)%Z by (symmetry; replace (bytev c) with (bytev c - 128 + 2 * 64)%Z at 1 by lia; rewrite Z.mod_add by lia; apply Z.mod_small; lia).
    replace (bytev d mod 64)%Z with (bytev d - 128)%Z by (symmetry; replace (bytev d) with (bytev d - 128 + 2 * 64)%Z at 1 by lia; rewrite Z.mod_add by lia; apply Z.mod_small; lia).
    split; [|lia]. right; right; right. split; [lia|]. exists a, b, c, d. repeat split; Z.div_mod_to_equations; lia.
Qed.
(** hexadecimal digits *)
Lemma hex_digit d : (0 <= d < 16)%Z -> digitVal (hexDigit d) = Some d.
Proof.
  intro R. unfold hexDigit, digitVal. destruct (d >? 9)%Z eqn:E.
  - rewrite Z.gtb_lt in E. rewrite bytev_byteof by lia.
    replace ((48 <=? d + 65 - 10) && (d + 65 - 10 <=? 57))%Z with false by (symmetry; rewrite andb_false_iff, !Z.leb_gt; lia).
    replace ((97 <=? d + 65 - 10) && (d + 65 - 10 <=? 122))%Z with false by (symmetry; rewrite andb_false_iff, !Z.leb_gt; lia).
    replace ((65 <=? d + 65 - 10) && (d + 65 - 10 <=? 90))%Z with true by (symmetry; rewrite andb_true_iff, !Z.leb_le; lia). f_equal. lia.
  - rewrite Z.gtb_ltb, Z.ltb_ge in E. rewrite bytev_byteof by lia.
    replace ((48 <=? d + 48) && (d + 48 <=? 57))%Z with true by (symmetry; rewrite andb_true_iff, !Z.leb_le; lia). f_equal. lia.
Qed.
Lemma hex_digits : forall k acc v, (0 <= v)%Z -> digits 16 acc (hexOf k v) = Some (acc * 16 ^ Z.of_nat k + v mod 16 ^ Z.of_nat k)%Z.
Proof.
  induction k as [|k IH]; intros acc v P.
  - cbn [hexOf digits]. change (16 ^ Z.of_nat 0)%Z with 1%Z. rewrite Z.mod_1_r. f_equal. lia.
  - cbn [hexOf digits]. pose proof (Z.mod_pos_bound (v / 16 ^ Z.of_nat k) 16 eq_refl) as B. rewrite hex_digit by exact B.
    replace (_ <? 16)%Z with true by (symmetry; apply Z.ltb_lt; lia). rewrite IH by exact P. f_equal.
    replace (Z.of_nat (Datatypes.S k)) with (Z.of_nat k + 1)%Z by lia. rewrite Z.pow_add_r by lia. change (16 ^ 1)%Z with 16%Z.
    rewrite (Z.rem_mul_r v (16 ^ Z.of_nat k) 16) by lia. lia.
Qed.
Lemma hex_inB k v : (0 < k)%nat -> (0 <= v < 16 ^ Z.of_nat k)%Z -> inB 16 (hexOf k v) v.
Proof.
  intros P R. apply parse_base. unfold parseBase. pose proof (hex_digits k 0%Z v (proj1 R)) as D. rewrite Z.mod_small in D by exact R.
  destruct (hexOf k v) eqn:E; [destruct k; [lia|discriminate E]|exact D].
Qed.
Lemma hex_code : forall l acc v t, digits 16 acc l = Some v -> hexCode (List.length l) acc (l ++ t) = Some (v, t).
Proof.
  induction l as [|c l IH]; intros acc v t H; cbn in *; [congruence|].
  assert (HV : forall d, digitVal c = Some d -> (d < 16)%Z -> hexValue c = Some d).
  { intros d D L. unfold digitVal in D. unfold hexValue. destruct ((48 <=? bytev c) && (bytev c <=? 57))%Z eqn:E1; [exact D|].
    destruct ((97 <=? bytev c) && (bytev c <=? 122))%Z eqn:E2.
    - injection D as <-. rewrite andb_true_iff, !Z.leb_le in E2.
      replace ((65 <=? bytev c) && (bytev c <=? 70))%Z with false by (symmetry; rewrite andb_false_iff, !Z.leb_gt; lia).
      replace ((97 <=? bytev c) && (bytev c <=? 102))%Z with true by (symmetry; rewrite andb_true_iff, !Z.leb_le; lia). f_equal. lia.
    - destruct ((65 <=? bytev c) && (bytev c <=? 90))%Z eqn:E3; [|discriminate D]. injection D as <-. rewrite andb_true_iff, !Z.leb_le in E3.
      replace ((65 <=? bytev c) && (bytev c <=? 70))%Z with true by (symmetry; rewrite andb_true_iff, !Z.leb_le; lia). f_equal. lia. }
  destruct (digitVal c) as [d|] eqn:D; [|discriminate H]. destruct (Z.ltb_spec d 16); [|discriminate H]. rewrite (HV d eq_refl) by assumption.
  rewrite (Z.mul_comm acc 16). now apply IH.
Qed.
(** escapes are read *)
Lemma encodes_fun v u u' : encodes v u -> encodes v u' -> u = u'.
Proof. intros E E'. apply encodes_encoded in E, E'. congruence. Qed.
Lemma unescape_escaped e u t : escaped e u -> unescape (e ++ t) = Some (u, t).
Proof.
  intro H. inversion H as [x v u' I E|p k hs v u' I L B E]; subst.
  - apply encodes_encoded in E. cbn in I.
    repeat (destruct I as [I|I]; [injection I as <- <-; vm_compute in E; injection E as <-; reflexivity|]). destruct I.
  - apply encodes_encoded in E. apply parse_base in B. assert (B' : digits 16 0 hs = Some v) by (destruct hs; [discriminate B|exact B]).
    pose proof (hex_code _ _ _ t B') as X.
    cbn in I. destruct I as [I|[I|[I|[]]]]; injection I as E1 E2; subst p; rewrite <- E2 in X; cbn [app unescape];
      (match goal with |- context [meaning ?q] => change (meaning q) with (@None (list ascii)) end);
      cbv beta iota; (match goal with |- context [codeLength ?q] => let r := eval vm_compute in (codeLength q) in change (codeLength q) with r end);
      cbv beta iota; rewrite X, E; reflexivity.
Qed.
(** * Reading quoted scalars *)
Definition quoteOf (single : bool) : ascii := if single then "'"%char else "034"%char.
Lemma padded_app a b : padded (a ++ b) = a ++ padded b.
Proof. unfold padded. now rewrite app_assoc. Qed.
Lemma break_low c x : (bytev c < 128)%Z -> breakAt (c :: x) = (bytev c =? 13)%Z || (bytev c =? 10)%Z.
Proof.
  intro L. unfold breakAt, padded, isBreak, byteAt. cbn [nth_error app]. destruct (_ || _); [reflexivity|].
  replace (bytev c =? 194)%Z with false by (symmetry; apply Z.eqb_neq; lia). replace (bytev c =? 226)%Z with false by (symmetry; apply Z.eqb_neq; lia). reflexivity.
Qed.
Lemma blankz_of c x : blankzAt (c :: x) = (bytev c =? 32)%Z || (bytev c =? 9)%Z || breakAt (c :: x) || (bytev c =? 0)%Z.
Proof.
  unfold blankzAt, breakAt, isBlankz, byteAt. change (padded (c :: x)) with (c :: padded x). cbn [nth_error]. destruct (_ || _); [reflexivity|].
  assert (S : exists b, isBreak (c :: padded x) = Some b).
  { apply (known c (padded x)). unfold width, padded. rewrite app_length. cbn [List.length]. destruct (_ <? _)%Z; [lia|]. destruct (_ && _); [lia|]. destruct (_ && _); [lia|]. destruct (_ && _); lia. }
  destruct S as (b & ->). now destruct b.
Qed.
Lemma is_blank c : isBlank c = true <-> blankChar c.
Proof. apply blank_b. Qed.
Lemma blank_bytes c : isBlank c = (bytev c =? 32)%Z || (bytev c =? 9)%Z.
Proof. destruct c as [[] [] [] [] [] [] [] []]; reflexivity. Qed.
Lemma wide_head u : wide u -> exists a r, u = a :: r /\ (194 <= bytev a)%Z /\ width a = List.length u /\ forall x, breakAt (u ++ x) = false.
Proof.
  intros (v & L & E & N). destruct E as [(R & _)|[(R & a & b & -> & A & B)|[(R & N2 & a & b & c & -> & A & B & C)|(R & a & b & c & d & -> & A & B & C & D)]]]; [lia| | |].
  - assert (RA : (194 <= bytev a <= 223)%Z) by (Z.div_mod_to_equations; lia). exists a, [b]. split; [reflexivity|]. split; [lia|]. split; [cbn [List.length]; apply (width_is a 2%nat 194 223); [exact RA|cbn; tauto]|].
    intro x. unfold breakAt. rewrite padded_app. cbn [app]. unfold isBreak, byteAt. cbn [nth_error].
    replace ((bytev a =? 13) || (bytev a =? 10))%Z with false by (symmetry; rewrite orb_false_iff, !Z.eqb_neq; lia).
    destruct (Z.eqb_spec (bytev a) 194) as [E|_].
    + cbn. apply Z.eqb_neq. intro E2. apply N. left. Z.div_mod_to_equations; lia.
    + replace (bytev a =? 226)%Z with false by (symmetry; apply Z.eqb_neq; lia). reflexivity.
  - assert (RA : (224 <= bytev a <= 239)%Z) by (Z.div_mod_to_equations; lia). exists a, [b; c]. split; [reflexivity|]. split; [lia|]. split; [cbn [List.length]; apply (width_is a 3%nat 224 239); [exact RA|cbn; tauto]|].
    intro x. unfold breakAt. rewrite padded_app. cbn [app]. unfold isBreak, byteAt. cbn [nth_error].
    replace ((bytev a =? 13) || (bytev a =? 10))%Z with false by (symmetry; rewrite orb_false_iff, !Z.eqb_neq; lia).
    replace (bytev a =? 194)%Z with false by (symmetry; apply Z.eqb_neq; lia).
    destruct (Z.eqb_spec (bytev a) 226) as [E|_]; [|reflexivity]. destruct (Z.eqb_spec (bytev b) 128) as [E2|_]; [|reflexivity].
    cbn. apply orb_false_iff. rewrite !Z.eqb_neq. split; intro E3; apply N; cbn; Z.div_mod_to_equations; lia.
  - assert (RA : (240 <= bytev a <= 244)%Z) by (Z.div_mod_to_equations; lia). exists a, [b; c; d]. split; [reflexivity|]. split; [lia|]. split; [cbn [List.length]; apply (width_is a 4%nat 240 244); [exact RA|cbn; tauto]|].
    intro x. unfold breakAt. rewrite padded_app. cbn [app]. unfold isBreak, byteAt. cbn [nth_error].
    replace ((bytev a =? 13) || (bytev a =? 10))%Z with false by (symmetry; rewrite orb_false_iff, !Z.eqb_neq; lia).
    replace (bytev a =? 194)%Z with false by (symmetry; apply Z.eqb_neq; lia). replace (bytev a =? 226)%Z with false by (symmetry; apply Z.eqb_neq; lia). reflexivity.
Qed.
Definition calmHead (x : list ascii) : Prop := exists c r, x = c :: r /\ isBlank c = false /\ breakAt x = false /\ c <> "000"%char.
Lemma calm_low c x : (33 <= bytev c <= 126)%Z -> calmHead (c :: x).
Proof.
  intro R. exists c, x. split; [reflexivity|]. rewrite blank_bytes, break_low by lia. split; [|split].
  - rewrite orb_false_iff, !Z.eqb_neq. lia.
  - rewrite orb_false_iff, !Z.eqb_neq. lia.
  - intros ->. vm_compute in R. intuition congruence.
Qed.
Definition opening (w : list ascii) : Prop := forall c r, w = c :: r -> ~ blankChar c /\ c <> newline.
Lemma quote_calm single rest : calmHead (quoteOf single :: rest).
Proof. apply calm_low. destruct single; vm_compute; intuition congruence. Qed.
Lemma content_head single w t rest : content single w t -> opening w -> calmHead (w ++ quoteOf single :: rest).
Proof.
  intros C O. inversion C as [|c w' t' R S D C'|u w' t' W C'|c w' t' B N C'|bs lines bs' w' t' B L B' O' M C'|e u w' t' S E C'|lines bs' w' t' S L B' O' M C'|w' t' S C']; subst.
  - apply quote_calm.
  - apply calm_low. exact R.
  - rewrite <- app_assoc. destruct (wide_head u W) as (a & r & -> & G & _ & BR). exists a, (r ++ w' ++ quoteOf single :: rest). split; [reflexivity|]. split; [|split].
    + rewrite blank_bytes, orb_false_iff, !Z.eqb_neq. lia.
    + apply BR.
    + intros ->. vm_compute in G. congruence.
  - destruct (O c w' eq_refl) as (Q & _). contradiction.
  - destruct bs as [|b bs].
    + destruct (O newline _ eq_refl) as (_ & Q). congruence.
    + destruct (O b _ eq_refl) as (Q & _). inversion B; subst. contradiction.
  - apply calm_low. vm_compute. intuition congruence.
  - apply calm_low. vm_compute. intuition congruence.
  - apply calm_low. vm_compute. intuition congruence.
Qed.
Lemma eat_blanks single bs : blanks bs -> forall n lead ws lb tb col x,
  scanFlow (List.length bs + n) single (Blanks lead ws lb tb) col (bs ++ x) = scanFlow n single (Blanks lead (if lead then ws else ws ++ bs) lb tb) (col + List.length bs) x.
Proof.
  induction 1 as [|c bs B _ IH]; intros n lead ws lb tb col x.
  - cbn. rewrite Nat.add_0_r. destruct lead; [reflexivity|]. now rewrite app_nil_r.
  - cbn [List.length plus app scanFlow]. rewrite (proj2 (is_blank c) B), IH. replace (col + 1 + List.length bs)%nat with (col + Datatypes.S (List.length bs))%nat by lia.
    destruct lead; [reflexivity|]. now rewrite <- app_assoc.
Qed.
Definition linesOf (lines : list (list ascii)) : list ascii := concat (map (fun l => l ++ [newline]) lines).
Lemma eat_lines single lines : Forall blanks lines -> forall n ws lb tb col x,
  scanFlow (List.length (linesOf lines) + n) single (Blanks true ws lb tb) col (linesOf lines ++ x) =
  scanFlow n single (Blanks true ws lb (tb ++ map (fun _ => newline) lines)) (match lines with [] => col | _ => 0%nat end) x.
Proof.
  induction 1 as [|l lines B _ IH]; intros n ws lb tb col x.
  - cbn. now rewrite app_nil_r.
  - unfold linesOf in *. cbn [map concat]. rewrite <- !app_assoc, !app_length. cbn [List.length app].
    replace (List.length l + (1 + List.length (concat (map (fun l => l ++ [newline]) lines))) + n)%nat
      with (List.length l + Datatypes.S (List.length (concat (map (fun l => l ++ [newline]) lines)) + n))%nat by lia.
    rewrite eat_blanks by exact B. cbn [scanFlow]. change (isBlank newline) with false. cbv beta iota.
    rewrite (break_low newline) by (vm_compute; reflexivity). change ((bytev newline =? 13) || (bytev newline =? 10))%Z with true. cbv beta iota.
    change (lineBreak (newline :: concat (map (fun l0 => l0 ++ [newline]) lines) ++ x)) with ([LF], concat (map (fun l0 => l0 ++ [newline]) lines) ++ x). cbv beta iota.
    rewrite IH. rewrite <- app_assoc. cbn [app map]. change LF with newline. now destruct lines.
Qed.
Lemma join_words single lead ws lb tb n col x : calmHead x -> (0 < col)%nat \/ marker x = false ->
  scanFlow (Datatypes.S (Datatypes.S n)) single (Blanks lead ws lb tb) col x = afterR (joined lead ws lb tb) (scanFlow n single Word col x).
Proof.
  intros (c & r & -> & B & K & Z) M. cbn [scanFlow]. rewrite B, K.
  replace (Nat.eqb col 0 && marker (c :: r)) with false.
  2: { symmetry. apply andb_false_iff. destruct M as [M|M]; [left; apply Nat.eqb_neq; lia|now right]. }
  destruct (Ascii.eqb_spec c "000"); [contradiction|]. reflexivity.
Qed.
Lemma mark_content single w rest : ~ documentMark w -> marker (w ++ quoteOf single :: rest) = false.
Proof.
  intro N. unfold marker. remember (w ++ quoteOf single :: rest) as x eqn:E. destruct x as [|a [|b [|c r]]]; try reflexivity.
  apply andb_false_iff. left. apply orb_false_iff. split.
  - apply not_true_is_false. intro T. rewrite !andb_true_iff, !Ascii.eqb_eq in T. destruct T as ((-> & ->) & ->).
    destruct w as [|x [|y [|z w]]]; cbn in E; try (destruct single; discriminate E).
    injection E as <- <- <- E. apply N. exists w. left. reflexivity.
  - apply not_true_is_false. intro T. rewrite !andb_true_iff, !Ascii.eqb_eq in T. destruct T as ((-> & ->) & ->).
    destruct w as [|x [|y [|z w]]]; cbn in E; try (destruct single; discriminate E).
    injection E as <- <- <- E. apply N. exists w. right. reflexivity.
Qed.
Lemma reads_content single w t : content single w t -> forall rest, (single = true -> forall r, rest <> "'"%char :: r) ->
  (forall n col, (6 * List.length w + 1 <= n)%nat -> scanFlow n single Word col (w ++ quoteOf single :: rest) = Got (t, rest)) /\
  (noFold w -> forall n ws col, (0 < col)%nat -> (6 * List.length w + 4 <= n)%nat -> scanFlow n single (Blanks false ws [] []) col (w ++ quoteOf single :: rest) = Got (ws ++ t, rest)).
Proof.
  intros C rest NR.
  assert (AB : forall w t, content single w t -> opening w ->
    (forall n col, (6 * List.length w + 1 <= n)%nat -> scanFlow n single Word col (w ++ quoteOf single :: rest) = Got (t, rest)) ->
    forall n ws col, (0 < col)%nat -> (6 * List.length w + 4 <= n)%nat -> scanFlow n single (Blanks false ws [] []) col (w ++ quoteOf single :: rest) = Got (ws ++ t, rest)).
  { intros w0 t0 C0 O A n ws col P L. destruct n as [|[|n]]; try lia. rewrite join_words; [|now apply (content_head single w0 t0)|now left].
    cbn [joined]. rewrite A by lia. reflexivity. }
  assert (NUL : forall c x, (33 <= bytev c <= 126)%Z -> blankzAt (c :: x) = false).
  { intros c x R. rewrite blankz_of, break_low by lia. rewrite !orb_false_iff, !Z.eqb_neq. lia. }
  induction C as [|c w t R S D C [IHA IHB]|u w t W C [IHA IHB]|c w t B N C [IHA IHB]|bs lines bs' w t B L B' O' M C [IHA IHB]|e u w t S E C [IHA IHB]|lines bs' w t S L B' O' M C [IHA IHB]|w t S C [IHA IHB]].
  - assert (A : forall n col, (6 * List.length (@nil ascii) + 1 <= n)%nat -> scanFlow n single Word col ([] ++ quoteOf single :: rest) = Got ([], rest)).
    { intros n col Ln. destruct n as [|n]; [cbn in Ln; lia|]. cbn [app scanFlow]. rewrite NUL by (destruct single; vm_compute; intuition congruence).
      destruct single; cbn [quoteOf].
      - change (Ascii.eqb "'" "'") with true. cbv beta iota. destruct rest as [|d r]; [reflexivity|]. destruct (Ascii.eqb_spec d "'") as [->|_]; [|reflexivity]. now destruct (NR eq_refl r).
      - reflexivity. }
    split; [exact A|]. intros _. apply AB; [constructor| |exact A]. intros c r E. discriminate E.
  - assert (A : forall n col, (6 * List.length (c :: w) + 1 <= n)%nat -> scanFlow n single Word col ((c :: w) ++ quoteOf single :: rest) = Got (c :: t, rest)).
    { intros n col Ln. destruct n as [|n]; [cbn in Ln; lia|]. cbn [app scanFlow]. rewrite NUL by exact R.
      assert (W1 : width c = 1%nat) by (apply (width_is c 1%nat 0 127); [unfold between; lia|cbn; tauto]). rewrite W1. cbn [firstn skipn].
      cbn [List.length] in Ln. destruct single.
      - destruct (Ascii.eqb_spec c "'") as [->|_]; [now destruct (S eq_refl)|]. cbn [quoteOf] in *. rewrite IHA by lia. reflexivity.
      - destruct (D eq_refl) as (D1 & D2). destruct (Ascii.eqb_spec c quote2); [contradiction|]. destruct (Ascii.eqb_spec c backslash); [contradiction|]. cbn [quoteOf] in *. rewrite IHA by lia. reflexivity. }
    split; [exact A|]. intros _. apply AB; [now constructor| |exact A]. intros c' r' E. injection E as <- <-. split.
    + intro I. apply is_blank in I. rewrite blank_bytes, orb_true_iff, !Z.eqb_eq in I. lia.
    + intros ->. vm_compute in R. intuition congruence.
  - destruct (wide_head u W) as (a & r & -> & G & WI & BR).
    assert (A : forall n col, (6 * List.length ((a :: r) ++ w) + 1 <= n)%nat -> scanFlow n single Word col (((a :: r) ++ w) ++ quoteOf single :: rest) = Got ((a :: r) ++ t, rest)).
    { intros n col Ln. destruct n as [|n]; [cbn in Ln; lia|]. rewrite <- app_assoc. rewrite app_length in Ln. cbn [List.length] in Ln, WI.
      specialize (BR (w ++ quoteOf single :: rest)). cbn [app] in *. cbn [scanFlow]. rewrite blankz_of, BR.
      replace (_ || _ || false || _) with false by (symmetry; rewrite !orb_false_iff, !Z.eqb_neq; lia).
      assert (F : firstn (width a) (a :: r ++ w ++ quoteOf single :: rest) = a :: r).
      { rewrite WI. cbn [firstn]. f_equal. rewrite firstn_app, Nat.sub_diag, firstn_all. cbn. now rewrite app_nil_r. }
      assert (K : skipn (width a) (a :: r ++ w ++ quoteOf single :: rest) = w ++ quoteOf single :: rest).
      { rewrite WI. cbn [skipn]. rewrite skipn_app, Nat.sub_diag, skipn_all. reflexivity. }
      assert (X : forall c', (bytev c' < 194)%Z -> Ascii.eqb a c' = false) by (intros c' L; apply Ascii.eqb_neq; intros ->; lia).
      rewrite !X by (vm_compute; reflexivity).
      assert (Y : match width a with O => Crash | Datatypes.S _ as w' => afterR (firstn w' (a :: r ++ w ++ quoteOf single :: rest)) (scanFlow n single Word (col + 1) (skipn w' (a :: r ++ w ++ quoteOf single :: rest))) end = Got (a :: r ++ t, rest)).
      { rewrite WI in F, K |- *. cbv beta iota zeta. rewrite F, K, IHA by lia. reflexivity. }
      destruct single; exact Y. }
    split; [exact A|]. intros _. apply AB; [apply Q_wide; assumption| |exact A]. intros c' r' E. injection E as <- <-. split.
    + intro I. apply is_blank in I. rewrite blank_bytes, orb_true_iff, !Z.eqb_eq in I. lia.
    + intros ->. vm_compute in G. congruence.
  - assert (Bz : isBlank c = true) by now apply is_blank. split.
    + intros n col Ln. cbn [List.length] in Ln. destruct n as [|[|n]]; try lia. cbn [app scanFlow]. rewrite blankz_of. rewrite <- blank_bytes, Bz. cbn [orb]. cbv beta iota.
      cbn [app]. rewrite IHB by (try exact N; lia). reflexivity.
    + intros _ n ws col P Ln. cbn [List.length] in Ln. destruct n as [|n]; try lia. cbn [app scanFlow]. rewrite Bz. rewrite IHB by (try exact N; lia). now rewrite <- app_assoc.
  - split; [|intro F; destruct (F bs (concat (map (fun l => l ++ [newline]) lines) ++ bs' ++ w) B eq_refl)].
    intros n col Ln. fold (linesOf lines) in *. repeat rewrite app_length in Ln. cbn [List.length] in Ln. repeat rewrite app_length in Ln.
    rewrite <- app_assoc. cbn [app]. rewrite <- !app_assoc.
    destruct n as [|n]; [lia|].
    assert (BZ : exists c x, bs ++ newline :: linesOf lines ++ bs' ++ w ++ quoteOf single :: rest = c :: x /\ blankzAt (c :: x) = true).
    { destruct bs as [|b bs]; [exists newline, (linesOf lines ++ bs' ++ w ++ quoteOf single :: rest); split; [reflexivity|]; rewrite blankz_of, break_low by (vm_compute; reflexivity); reflexivity|].
      eexists b, _. split; [reflexivity|]. rewrite blankz_of, <- blank_bytes. inversion B; subst. now rewrite (proj2 (is_blank b)). }
    destruct BZ as (c & x & EX & BZ). rewrite EX. cbn [scanFlow]. rewrite BZ. rewrite <- EX. clear c x EX BZ.
    replace n with (List.length bs + Datatypes.S (List.length (linesOf lines) + (List.length bs' + Datatypes.S (Datatypes.S (n - List.length bs - List.length (linesOf lines) - List.length bs' - 3)))))%nat by lia.
    rewrite eat_blanks by exact B. cbn [scanFlow]. change (isBlank newline) with false. cbv beta iota.
    rewrite (break_low newline) by (vm_compute; reflexivity). change ((bytev newline =? 13) || (bytev newline =? 10))%Z with true. cbv beta iota.
    change (lineBreak (newline :: linesOf lines ++ bs' ++ w ++ quoteOf single :: rest)) with ([LF], linesOf lines ++ bs' ++ w ++ quoteOf single :: rest). cbv beta iota.
    rewrite eat_lines by exact L. rewrite eat_blanks by exact B'. cbv beta iota.
    rewrite join_words.
    + rewrite IHA by lia. cbn [app]. unfold joined. change (Ascii.eqb LF LF) with true. cbv beta iota. destruct lines; reflexivity.
    + now apply (content_head single w t).
    + destruct bs' as [|b bs']; [right; apply mark_content; now apply M|left; cbn; lia].
  - assert (A : forall n col, (6 * List.length ("\"%char :: e ++ w) + 1 <= n)%nat -> scanFlow n single Word col (("\"%char :: e ++ w) ++ quoteOf single :: rest) = Got (u ++ t, rest)).
    { subst single. intros n col Ln. cbn [List.length] in Ln. rewrite app_length in Ln. destruct n as [|n]; [lia|]. cbn [app]. rewrite <- app_assoc. cbn [scanFlow].
      rewrite NUL by (vm_compute; intuition congruence). change (Ascii.eqb "\" quote2) with false. change (Ascii.eqb "\" backslash) with true. cbv beta iota.
      assert (BR : breakAt (e ++ w ++ quoteOf false :: rest) = false).
      { inversion E as [x v u' I E'|p k hs v u' I L' B' E']; subst; cbn [app]; cbn in I;
          repeat (destruct I as [I|I]; [injection I; intros; subst; rewrite break_low by (vm_compute; reflexivity); reflexivity|]); destruct I. }
      rewrite BR, (unescape_escaped _ _ _ E). rewrite IHA by lia. reflexivity. }
    split; [exact A|]. intros _. apply AB; [now apply Q_escape| |exact A]. intros c' r' E'. injection E' as <- _. split; [cbn; intuition discriminate|discriminate].
  - assert (A : forall n col, (6 * List.length ("\"%char :: newline :: linesOf lines ++ bs' ++ w) + 1 <= n)%nat -> scanFlow n single Word col (("\"%char :: newline :: linesOf lines ++ bs' ++ w) ++ quoteOf single :: rest) = Got (map (fun _ => newline) lines ++ t, rest)).
    { subst single. intros n col Ln. cbn [List.length] in Ln. repeat rewrite app_length in Ln. destruct n as [|n]; [lia|]. cbn [app]. rewrite <- !app_assoc. cbn [scanFlow].
      rewrite NUL by (vm_compute; intuition congruence). change (Ascii.eqb "\" quote2) with false. change (Ascii.eqb "\" backslash) with true. cbv beta iota.
      rewrite (break_low newline) by (vm_compute; reflexivity). change ((bytev newline =? 13) || (bytev newline =? 10))%Z with true. cbv beta iota.
      change (lineBreak (newline :: linesOf lines ++ bs' ++ w ++ quoteOf false :: rest)) with ([LF], linesOf lines ++ bs' ++ w ++ quoteOf false :: rest). cbv beta iota. cbn [snd].
      destruct (linesOf lines ++ bs' ++ w ++ quoteOf false :: rest) as [|d q] eqn:EX; [destruct (linesOf lines), bs', w; discriminate EX|].
      destruct (Ascii.eqb_spec d quote2) as [->|ND].
      { (* nothing between the line break and the quote *)
        assert (LN : lines = []). { destruct lines as [|l ls]; [reflexivity|]. inversion L; subst. destruct l as [|b l]; [discriminate EX|]. injection EX as -> _. match goal with H : blanks (quote2 :: _) |- _ => inversion H; subst end. exfalso. match goal with H : In quote2 _ |- _ => vm_compute in H; intuition discriminate end. }
        subst lines. cbn [linesOf map concat app] in EX. destruct bs' as [|b bs']; [|injection EX as -> _; inversion B'; subst; exfalso; match goal with H : In quote2 _ |- _ => vm_compute in H; intuition discriminate end].
        cbn [app] in EX. specialize (IHA n 0%nat ltac:(lia)). rewrite EX in IHA. destruct n as [|n]; [lia|]. cbn [scanFlow] in IHA. rewrite NUL in IHA by (vm_compute; intuition congruence).
        change (Ascii.eqb quote2 quote2) with true in IHA. cbv beta iota in IHA. exact IHA. }
      rewrite <- EX.
      replace n with (List.length (linesOf lines) + (List.length bs' + Datatypes.S (Datatypes.S (n - List.length (linesOf lines) - List.length bs' - 2))))%nat by lia.
      rewrite eat_lines by exact L. rewrite eat_blanks by exact B'. cbv beta iota. rewrite join_words.
      + rewrite IHA by lia. reflexivity.
      + now apply (content_head false w t).
      + destruct bs' as [|b bs']; [right; apply mark_content; now apply M|left; cbn; lia]. }
    split; [exact A|]. intros _. apply AB; [now apply Q_continued| |exact A]. intros c' r' E'. injection E' as <- _. split; [cbn; intuition discriminate|discriminate].
  - assert (A : forall n col, (6 * List.length ("'"%char :: "'"%char :: w) + 1 <= n)%nat -> scanFlow n single Word col (("'"%char :: "'"%char :: w) ++ quoteOf single :: rest) = Got ("'"%char :: t, rest)).
    { subst single. intros n col Ln. cbn [List.length] in Ln. destruct n as [|n]; [lia|]. cbn [app scanFlow]. rewrite NUL by (vm_compute; intuition congruence).
      change (Ascii.eqb "'" "'") with true. cbv beta iota. rewrite IHA by lia. reflexivity. }
    split; [exact A|]. intros _. apply AB; [now apply Q_quote| |exact A]. intros c' r' E'. injection E' as <- _. split; [cbn; intuition discriminate|discriminate].
Qed.
Theorem C63_read : forall single w t rest col, content single w t -> (single = true -> forall r, rest <> "'"%char :: r) -> (0 < col)%nat ->
  scanQuoted single col (w ++ (if single then "'"%char else "034"%char) :: rest) = Got (t, rest).
Proof.
  intros single w t rest col C NR P. change (if single then "'"%char else "034"%char) with (quoteOf single).
  unfold scanQuoted. set (x := w ++ quoteOf single :: rest). assert (L : List.length x = (List.length w + Datatypes.S (List.length rest))%nat) by (unfold x; rewrite app_length; reflexivity).
  replace (6 * List.length x + 6)%nat with (Datatypes.S (6 * List.length x + 5)) by lia. cbn [scanFlow].
  replace (Nat.eqb col 0) with false by (symmetry; apply Nat.eqb_neq; lia). cbn [andb].
  destruct (reads_content single w t C rest NR) as (A & _). specialize (A (6 * List.length x + 5)%nat col ltac:(lia)). fold x in A.
  destruct x as [|c r] eqn:EX; [cbn in L; lia|]. destruct (Ascii.eqb_spec c "000") as [->|_]; [|exact A].
  exfalso. replace (6 * List.length ("000"%char :: r) + 5)%nat with (Datatypes.S (Datatypes.S (Datatypes.S (6 * List.length r + 8)))) in A by (cbn [List.length]; lia).
  cbn [scanFlow] in A. rewrite blankz_of in A. rewrite break_low in A by (vm_compute; reflexivity).
  change ((bytev "000" =? 32) || (bytev "000" =? 9) || ((bytev "000" =? 13) || (bytev "000" =? 10)) || (bytev "000" =? 0))%Z with true in A. cbv beta iota in A.
  change (isBlank "000") with false in A. change ((bytev "000" =? 13) || (bytev "000" =? 10))%Z with false in A. cbv beta iota in A.
  replace (Nat.eqb col 0) with false in A by (symmetry; apply Nat.eqb_neq; lia). cbn [andb] in A. change (Ascii.eqb "000" "000") with true in A. cbv beta iota in A. discriminate A.
Qed.

(** * Writing double quoted texts *)
Lemma hex_plain k v : (0 <= v)%Z -> Forall between32 (hexOf k v).
Proof.
  intro P. induction k as [|k IH]; [constructor|]. cbn [hexOf]. constructor; [|exact IH].
  pose proof (Z.mod_pos_bound (v / 16 ^ Z.of_nat k) 16 eq_refl) as B. unfold between32, hexDigit. destruct (_ >? 9)%Z eqn:E; [rewrite Z.gtb_lt in E|rewrite Z.gtb_ltb, Z.ltb_ge in E]; rewrite bytev_byteof; lia.
Qed.
Lemma hex_length k v : List.length (hexOf k v) = k.
Proof. induction k; cbn; congruence. Qed.
Lemma escape_escaped v u : encodes v u -> (0 <= v < 1114112)%Z -> exists e, escape v = "\"%char :: e /\ escaped e u /\ Forall between32 e.
Proof.
  intros E R. unfold escape. eexists. split; [reflexivity|].
  destruct (find (fun p => (fst p =? v)%Z) letters) as [[z e]|] eqn:F.
  - apply find_some in F. destruct F as (I & Q). cbn in Q. apply Z.eqb_eq in Q. subst z. cbn [snd]. cbn in I. split.
    + apply (E_letter e v u); [|exact E]. repeat (destruct I as [I|I]; [injection I as <- <-; cbn; tauto|]). destruct I.
    + repeat (destruct I as [I|I]; [injection I as <- <-; repeat constructor; vm_compute; intuition congruence|]). destruct I.
  - assert (BT : forall c k, (32 <= bytev c <= 126)%Z -> Forall between32 (c :: hexOf k v)) by (intros; constructor; [assumption|apply hex_plain; lia]).
    assert (HX : forall p k, In (p, k) [("x", 2); ("u", 4); ("U", 8)]%char%nat -> (v < 16 ^ Z.of_nat k)%Z -> escaped (p :: hexOf k v) u).
    { intros p k I L. apply (E_hex p k _ v); [exact I|apply hex_length| |exact E]. apply hex_inB; [|lia]. cbn in I. destruct I as [I|[I|[I|[]]]]; injection I as _ <-; lia. }
    destruct (Z.leb_spec v 255); [|destruct (Z.leb_spec v 65535)]; (split; [apply HX; [cbn; tauto|cbn; lia]|apply BT; vm_compute; intuition congruence]).
Qed.
Lemma noFold_cons c w : c <> newline -> noFold w -> noFold (c :: w).
Proof.
  intros N F bs x B E. destruct bs as [|b bs]; [injection E as -> _; congruence|]. injection E as -> E. inversion B; subst. now apply (F bs x).
Qed.
Lemma noFold_stop c w : c <> newline -> ~ blankChar c -> noFold (c :: w).
Proof.
  intros N F bs x B E. destruct bs as [|b bs]; [injection E as -> _; congruence|]. injection E as -> E. inversion B; subst. contradiction.
Qed.
Lemma noFold_nil : noFold [].
Proof. intros bs x B E. destruct bs; discriminate E. Qed.
Lemma visible_stop c w : (33 <= bytev c <= 126)%Z -> noFold (c :: w).
Proof.
  intro R. apply noFold_stop; [intros ->; vm_compute in R; intuition congruence|]. intro I. apply is_blank in I. rewrite blank_bytes, orb_true_iff, !Z.eqb_eq in I. lia.
Qed.
Lemma spaces_blanks k : blanks (repeat " "%char k).
Proof. apply Forall_forall. intros c I. apply repeat_spec in I. subst. cbn. tauto. Qed.
Lemma spaces_ascii k : Forall ascii7 (repeat " "%char k).
Proof. apply Forall_forall. intros c I. apply repeat_spec in I. subst. right. vm_compute. intuition congruence. Qed.
Definition settled (indent : nat) (spaces : bool) (p : pen) : Prop := indention p = true -> (indent <= column p)%nat /\ (spaces = false -> indent < column p)%nat.
Lemma between_ascii l : Forall between32 l -> Forall ascii7 l.
Proof. apply Forall_impl. intros c H. now right. Qed.
Lemma space_fold indent w t : (0 < indent)%nat -> content false w t -> (forall c r, w = c :: r -> ~ blankChar c /\ c <> newline) -> content false ((newline :: repeat " "%char indent) ++ w) (" "%char :: t).
Proof.
  intros P C O. assert (B : blanks (repeat " "%char indent)) by apply spaces_blanks.
  apply (Q_fold false [] [] (repeat " "%char indent) w t); try assumption; try constructor.
  intro E. destruct indent; [lia|discriminate E].
Qed.
Lemma writes_double breaks indent : (0 < indent)%nat -> forall k l, (List.length l <= k)%nat -> utf8Text l -> forall n first spaces p, (List.length l <= n)%nat -> settled indent spaces p ->
  exists w, writeDouble n breaks indent first spaces p l = Done w /\ content false w l /\ Forall ascii7 w /\ (spaces = true -> noFold w) /\
            (match l with [] => True | c :: _ => isSp c = false end -> opening w).
Proof.
  intro PI. induction k as [|k IH]; intros l LK U n first spaces p LN ST.
  { destruct l; [|cbn in LK; lia]. exists []. destruct n; (split; [reflexivity|]; split; [constructor|]; split; [constructor|]; split; [intros _; apply noFold_nil|intros _ c r E; discriminate E]). }
  destruct l as [|c r].
  { exists []. destruct n; (split; [reflexivity|]; split; [constructor|]; split; [constructor|]; split; [intros _; apply noFold_nil|intros _ c r E; discriminate E]). }
  destruct n as [|n]; [cbn in LN; lia|]. cbn [List.length] in LK, LN.
  destruct (utf8_char c r U) as (W0 & WL & US). destruct (known c r WL) as ((bk & BK) & _ & (pr & PR)).
  cbn [writeDouble]. rewrite PR. unfold need at 1.
  set (special := negb pr || (128 <=? bytev c)%Z || (bk || Ascii.eqb c quote2 || Ascii.eqb c backslash)).
  replace (if negb pr || (128 <=? bytev c)%Z then Some true else match isBreak (c :: r) with Some b => Some (b || Ascii.eqb c quote2 || Ascii.eqb c backslash) | None => None end) with (Some special).
  2: { unfold special. rewrite BK. destruct (negb pr || (128 <=? bytev c)%Z); reflexivity. }
  unfold need at 1. destruct special eqn:SP.
  - (* an escape *)
    destruct (rune_encodes c r U) as (v & RV & EV & BV). rewrite RV. destruct (escape_escaped v _ EV BV) as (e & EE & ES & EB).
    destruct (IH (skipn (width c) (c :: r))) with (n := n) (first := false) (spaces := false) (p := advance p (List.length (escape v))) as (w & WD & CW & AW & _ & _); try exact US.
    { rewrite skipn_length. cbn [List.length]. lia. } { rewrite skipn_length. cbn [List.length]. lia. }
    { intro I. cbn [advance indention column] in *. destruct (ST I) as (S1 & _). rewrite EE. cbn [List.length]. split; [|intros _]; lia. }
    exists (escape v ++ w). rewrite WD. split; [reflexivity|]. rewrite EE. cbn [app]. split; [|split; [|split]].
    + rewrite <- (firstn_skipn (width c) (c :: r)) at 1. apply Q_escape; [reflexivity|exact ES|exact CW].
    + constructor; [right; vm_compute; intuition congruence|]. apply Forall_app. split; [now apply between_ascii|exact AW].
    + intros _. apply visible_stop. vm_compute. intuition congruence.
    + intros _ c' r' E. injection E as <- _. split; [cbn; intuition discriminate|discriminate].
  - unfold special in SP. rewrite !orb_false_iff, negb_false_iff, Z.leb_gt in SP. destruct SP as ((SP1 & SP2) & (SP3 & SP4) & SP5). subst pr bk.
    rewrite Ascii.eqb_neq in SP4, SP5.
    assert (B32 : between32 c).
    { destruct (printable_ascii c r SP2 PR) as [->|X]; [vm_compute in BK; discriminate BK|exact X]. }
    assert (UR : utf8Text r).
    { rewrite (width_is c 1%nat 0 127) in US by (try (cbn; tauto); unfold between, between32 in *; lia). exact US. }
    destruct (isSp c) eqn:SC.
    + apply Ascii.eqb_eq in SC. subst c.
      assert (NOF : exists w, after [" "%char] (writeDouble n breaks indent false true (advance p 1) r) = Done w /\ content false w (" "%char :: r) /\ Forall ascii7 w /\ noFold w).
      { destruct (IH r ltac:(lia) UR n false true (advance p 1) ltac:(lia)) as (w & WD & CW & AW & NW & _).
        { intro I. cbn [advance indention column] in *. destruct (ST I). split; [lia|discriminate]. }
        exists (" "%char :: w). rewrite WD. split; [reflexivity|]. specialize (NW eq_refl). split; [|split].
        - constructor; [cbn; tauto|exact NW|exact CW].
        - constructor; [now right|exact AW].
        - apply noFold_cons; [discriminate|exact NW]. }
      destruct (breaks && negb spaces && Nat.ltb bestWidth (column p) && negb first && negb (match r with [] => true | _ => false end)) eqn:FO.
      * rewrite !andb_true_iff, !negb_true_iff in FO. destruct FO as ((((FB & FS) & FC) & FF) & FR). subst spaces. destruct r as [|d r]; [discriminate FR|].
        assert (WI : writeIndent indent p = (newline :: repeat " "%char indent, mkPen indent true true)).
        { unfold writeIndent. assert (FRESH : negb (indention p) || Nat.ltb indent (column p) || (Nat.eqb (column p) indent && negb (whitespace p)) = true).
          { destruct (indention p) eqn:I; [|reflexivity]. destruct (ST I) as (_ & S2). apply orb_true_iff. left. apply orb_true_iff. right. apply Nat.ltb_lt. now apply S2. }
          rewrite FRESH, Nat.sub_0_r. reflexivity. }
        rewrite WI. cbn [List.length] in *. destruct (isSp d) eqn:SD.
        -- apply Ascii.eqb_eq in SD. subst d. destruct n as [|n]; [lia|].
           assert (UR2 : utf8Text r). { inversion UR as [|x l Ra H|x b l Ra Rb H|x b c l R Rc H|x b c d l R Rc Rd H]; subst; [exact H|exfalso..]; unfold between in *; change (bytev " ") with 32%Z in *; lia. }
           destruct (IH r ltac:(lia) UR2 n false true (advance (advance (mkPen indent true true) 1) 1) ltac:(lia)) as (w & WD & CW & AW & NW & _).
           { intro I. cbn [advance indention column] in *. split; [lia|discriminate]. }
           exists ((newline :: repeat " "%char indent) ++ "\"%char :: " "%char :: w).
           split; [|split; [|split; [|split]]].
           ++ change (writeDouble (Datatypes.S n) breaks indent false true (advance (mkPen indent true true) 1) (" "%char :: r)) with
                (if breaks && false && Nat.ltb bestWidth (column (advance (mkPen indent true true) 1)) && true && negb (match r with [] => true | _ => false end) then
                   let (w, p) := writeIndent indent (advance (mkPen indent true true) 1) in match r with d :: _ => if isSp d then after (w ++ [backslash]) (writeDouble n breaks indent false true (advance p 1) r) else after w (writeDouble n breaks indent false true p r) | [] => Panics end
                 else after [" "%char] (writeDouble n breaks indent false true (advance (advance (mkPen indent true true) 1) 1) r)).
              rewrite andb_false_r. cbn [andb]. rewrite WD. cbn [after]. rewrite <- app_assoc. reflexivity.
           ++ apply space_fold; [exact PI| |].
              ** apply (Q_escape false [" "%char] [" "%char] w r); [reflexivity| |exact CW]. apply (E_letter " "%char 32); [cbn; tauto|]. left. split; [lia|]. exists " "%char. split; reflexivity.
              ** intros c' r' E. injection E as <- _. split; [cbn; intuition discriminate|discriminate].
           ++ apply Forall_app. split; [constructor; [now left|apply spaces_ascii]|]. constructor; [right; vm_compute; intuition congruence|]. constructor; [right; vm_compute; intuition congruence|exact AW].
           ++ discriminate.
           ++ discriminate.
        -- destruct (IH (d :: r) ltac:(cbn [List.length]; lia) UR n false true (mkPen indent true true) ltac:(cbn [List.length]; lia)) as (w & WD & CW & AW & NW & OW).
           { intro I. cbn [column]. split; [lia|discriminate]. }
           exists ((newline :: repeat " "%char indent) ++ w). rewrite WD. split; [reflexivity|]. split; [|split; [|split]].
           ++ apply space_fold; [exact PI|exact CW|]. apply OW. exact SD.
           ++ apply Forall_app. split; [constructor; [now left|apply spaces_ascii]|exact AW].
           ++ discriminate.
           ++ discriminate.
      * destruct NOF as (w & WD & CW & AW & NW). exists w. split; [exact WD|]. split; [exact CW|]. split; [exact AW|]. split; [intros _; exact NW|discriminate].
    + apply Ascii.eqb_neq in SC. assert (R33 : (33 <= bytev c <= 126)%Z).
      { unfold between32 in B32. assert (bytev c <> 32)%Z by (intro E; apply SC; apply byte_eq; exact E). lia. }
      destruct (IH r ltac:(lia) UR n false false (advance p 1) ltac:(lia)) as (w & WD & CW & AW & _ & _).
      { intro I. cbn [advance indention column] in *. destruct (ST I). split; [|intros _]; lia. }
      exists (c :: w). rewrite WD. split; [reflexivity|]. split; [|split; [|split]].
      * constructor; [exact R33|discriminate|intros _; split; assumption|exact CW].
      * constructor; [now right|exact AW].
      * intros _. now apply visible_stop.
      * intros _ c' r' E. injection E as <- _. split.
        -- intro I. apply is_blank in I. rewrite blank_bytes, orb_true_iff, !Z.eqb_eq in I. lia.
        -- intros ->. vm_compute in R33. intuition congruence.
Qed.
Lemma write_indent indent spaces p : settled indent spaces p -> spaces = false -> writeIndent indent p = (newline :: repeat " "%char indent, mkPen indent true true).
Proof.
  intros ST ->. unfold writeIndent. assert (FRESH : negb (indention p) || Nat.ltb indent (column p) || (Nat.eqb (column p) indent && negb (whitespace p)) = true).
  { destruct (indention p) eqn:I; [|reflexivity]. destruct (ST I) as (_ & S2). apply orb_true_iff. left. apply orb_true_iff. right. apply Nat.ltb_lt. now apply S2. }
  rewrite FRESH, Nat.sub_0_r. reflexivity.
Qed.
Lemma visible c : between32 c -> c <> " "%char -> (33 <= bytev c <= 126)%Z.
Proof. unfold between32. intros B N. assert (bytev c <> 32)%Z by (intro E; apply N; apply byte_eq; exact E). lia. Qed.
Lemma visible_open c w : (33 <= bytev c <= 126)%Z -> opening (c :: w).
Proof.
  intros R c' r' E. injection E as <- _. split.
  - intro I. apply is_blank in I. rewrite blank_bytes, orb_true_iff, !Z.eqb_eq in I. lia.
  - intros ->. vm_compute in R. intuition congruence.
Qed.
(** * Writing single quoted texts *)
Lemma writes_single breaks indent : (0 < indent)%nat -> forall l, Forall between32 l -> forall first spaces p, settled indent spaces p ->
  content true (writeSingle breaks indent first spaces p l) l /\ Forall ascii7 (writeSingle breaks indent first spaces p l) /\ (spaces = true -> noFold (writeSingle breaks indent first spaces p l)) /\
  (match l with [] => True | c :: _ => isSp c = false end -> opening (writeSingle breaks indent first spaces p l)).
Proof.
  intro PI. induction l as [|c r IH]; intros FA first spaces p ST.
  { cbn. split; [constructor|]. split; [constructor|]. split; [intros _; apply noFold_nil|intros _ c r E; discriminate E]. }
  inversion FA as [|x y B32 FR]; subst. cbn [writeSingle]. destruct (isSp c) eqn:SC.
  - apply Ascii.eqb_eq in SC. subst c.
    destruct (breaks && negb spaces && Nat.ltb bestWidth (column p) && negb first && match r with d :: _ => negb (isSp d) | [] => false end) eqn:FO.
    + rewrite !andb_true_iff, !negb_true_iff in FO. destruct FO as ((((FB & FS) & FC) & FF) & FN). subst spaces. destruct r as [|d r]; [discriminate FN|]. apply negb_true_iff in FN.
      rewrite (write_indent indent false p ST eq_refl).
      destruct (IH FR false true (mkPen indent true true)) as (CW & AW & NW & OW). { intro I. cbn [column]. split; [lia|discriminate]. }
      split; [|split; [|split]].
      * apply (Q_fold true [] [] (repeat " "%char indent)); [constructor|constructor|apply spaces_blanks|exact (OW FN)|intro E; destruct indent; [lia|discriminate E]|exact CW].
      * apply Forall_app. split; [constructor; [now left|apply spaces_ascii]|exact AW].
      * discriminate.
      * discriminate.
    + destruct (IH FR false true (advance p 1)) as (CW & AW & NW & OW). { intro I. cbn [advance indention column] in *. destruct (ST I). split; [lia|discriminate]. }
      specialize (NW eq_refl). split; [|split; [|split]].
      * constructor; [cbn; tauto|exact NW|exact CW].
      * constructor; [now right|exact AW].
      * intros _. apply noFold_cons; [discriminate|exact NW].
      * discriminate.
  - apply Ascii.eqb_neq in SC. pose proof (visible c B32 SC) as R33.
    destruct (Ascii.eqb_spec c "'") as [->|NQ].
    + destruct (IH FR false false (mkPen (column p + List.length ["'"; "'"]%char) (whitespace p) false)) as (CW & AW & _ & _). { intro I. discriminate I. }
      split; [|split; [|split]].
      * apply Q_quote; [reflexivity|exact CW].
      * constructor; [now right|]. constructor; [now right|exact AW].
      * intros _. now apply visible_stop.
      * intros _. now apply visible_open.
    + destruct (IH FR false false (mkPen (column p + List.length [c]) (whitespace p) false)) as (CW & AW & _ & _). { intro I. discriminate I. }
      split; [|split; [|split]].
      * apply Q_char; [exact R33|intros _; exact NQ|discriminate|exact CW].
      * constructor; [now right|exact AW].
      * intros _. now apply visible_stop.
      * intros _. now apply visible_open.
Qed.
(** * Writing plain texts *)
Lemma writes_plain breaks indent k : (0 < indent)%nat -> (k <= indent)%nat -> forall l, Forall between32 l -> (forall r, l <> r ++ [" "%char]) -> forall spaces p, settled indent spaces p ->
  exists w, writePlain breaks indent spaces p l = Done w /\ plain k w l /\ Forall ascii7 w /\ (spaces = true -> noFold w) /\
            (forall c t, l = c :: t -> isSp c = false -> exists w', w = c :: w').
Proof.
  intros PI KI. induction l as [|c r IH]; intros FA NE spaces p ST.
  { exists []. split; [reflexivity|]. split; [constructor|]. split; [constructor|]. split; [intros _; apply noFold_nil|intros c t E; discriminate E]. }
  inversion FA as [|x y B32 FR]; subst. assert (NR : forall q, r <> q ++ [" "%char]) by (intros q E; apply (NE (c :: q)); now rewrite E).
  cbn [writePlain]. destruct (isSp c) eqn:SC.
  - apply Ascii.eqb_eq in SC. subst c. destruct r as [|d r]; [destruct (NE [] eq_refl)|].
    assert (X : (if breaks && negb spaces && Nat.ltb bestWidth (column p) then Some (negb (isSp d)) else Some false) = Some (breaks && negb spaces && Nat.ltb bestWidth (column p) && negb (isSp d)))
      by (destruct (breaks && negb spaces && Nat.ltb bestWidth (column p)); reflexivity).
    rewrite X. unfold need at 1. destruct (breaks && negb spaces && Nat.ltb bestWidth (column p) && negb (isSp d)) eqn:FO.
    + rewrite !andb_true_iff, !negb_true_iff in FO. destruct FO as (((FB & FS) & FC) & FN). subst spaces.
      rewrite (write_indent indent false p ST eq_refl).
      destruct (IH FR NR true (mkPen indent true true)) as (w & WD & CW & AW & NW & OW). { intro I. cbn [column]. split; [lia|discriminate]. }
      destruct (OW d r eq_refl FN) as (w' & ->). exists ((newline :: repeat " "%char indent) ++ d :: w'). rewrite WD. split; [reflexivity|]. split; [|split; [|split]].
      * apply (P_fold k indent d w' r KI PI); [|exact CW]. inversion FR; subst. apply visible; [assumption|]. now apply Ascii.eqb_neq.
      * apply Forall_app. split; [constructor; [now left|apply spaces_ascii]|exact AW].
      * discriminate.
      * intros c t E S. injection E as <- _. discriminate S.
    + destruct (IH FR NR true (advance p 1)) as (w & WD & CW & AW & NW & OW). { intro I. cbn [advance indention column] in *. destruct (ST I). split; [lia|discriminate]. }
      specialize (NW eq_refl). exists (" "%char :: w). rewrite WD. split; [reflexivity|]. split; [|split; [|split]].
      * constructor; assumption.
      * constructor; [now right|exact AW].
      * intros _. apply noFold_cons; [discriminate|exact NW].
      * intros c t E S. injection E as <- _. discriminate S.
  - apply Ascii.eqb_neq in SC. pose proof (visible c B32 SC) as R33.
    destruct (IH FR NR false (mkPen (column p + 1) (whitespace p) false)) as (w & WD & CW & AW & _ & _). { intro I. discriminate I. }
    exists (c :: w). rewrite WD. split; [reflexivity|]. split; [|split; [|split]].
    + constructor; assumption.
    + constructor; [now right|exact AW].
    + intros _. now apply visible_stop.
    + intros c' t' E _. injection E as <- _. now exists w.
Qed.
(** * Reading plain texts *)
Definition inner (t : list ascii) : Prop :=
  (forall a b, t = a ++ ":"%char :: b -> exists d q, b = d :: q /\ d <> " "%char) /\ (forall a b, t <> a ++ " "%char :: "#"%char :: b) /\ (forall r, t <> r ++ [" "%char]).
Lemma inner_tail c t : inner (c :: t) -> inner t.
Proof.
  intros (A & B & C). split; [|split].
  - intros a b E. apply (A (c :: a) b). now rewrite E.
  - intros a b E. apply (B (c :: a) b). now rewrite E.
  - intros r E. apply (C (c :: r)). now rewrite E.
Qed.
Lemma blankz_visible c x : (33 <= bytev c <= 126)%Z -> blankzAt (c :: x) = false.
Proof. intros R. rewrite blankz_of, break_low by lia. rewrite !orb_false_iff, !Z.eqb_neq. lia. Qed.
Lemma blank_visible c : (33 <= bytev c <= 126)%Z -> isBlank c = false.
Proof. intros R. rewrite blank_bytes, orb_false_iff, !Z.eqb_neq. lia. Qed.
Lemma break_visible c x : (33 <= bytev c <= 126)%Z -> breakAt (c :: x) = false.
Proof. intros R. rewrite break_low by lia. rewrite orb_false_iff, !Z.eqb_neq. lia. Qed.
Lemma eat_spaces k : forall j n ws lb tb col x, scanP (j + n) k PBlanks true ws lb tb col (repeat " "%char j ++ x) = scanP n k PBlanks true ws lb tb (col + j) x.
Proof.
  induction j as [|j IH]; intros n ws lb tb col x; [cbn; now rewrite Nat.add_0_r|]. cbn [plus repeat app scanP]. change (isBlank " ") with true. change (Ascii.eqb " " "009") with false. rewrite andb_false_r. cbv beta iota.
  rewrite IH. f_equal. lia.
Qed.
Lemma reads_plain k rest rest' N0 : (forall n col, (N0 <= n)%nat -> scanP n k PWord false [] [] [] col rest = Got ([], rest')) ->
  forall w t, plain k w t -> inner t ->
  (forall n col, (k <= col)%nat -> (6 * List.length w + 1 + N0 <= n)%nat -> scanP n k PWord false [] [] [] col (w ++ rest) = Got (t, rest')) /\
  (forall n lead ws lb tb col, (k <= col)%nat -> opening w -> w <> [] -> (6 * List.length w + 1 + N0 <= n)%nat -> scanP n k PWord lead ws lb tb col (w ++ rest) = Got (joined lead ws lb tb ++ t, rest')) /\
  (forall n ws col, (k <= col)%nat -> (0 < col)%nat -> inner (" "%char :: t) -> w <> [] -> noFold w -> (6 * List.length w + 3 + N0 <= n)%nat -> scanP n k PBlanks false ws [] [] col (w ++ rest) = Got (ws ++ t, rest')).
Proof.
  intro STOP. induction 1 as [|c w t R C IH|w t NF C IH|j c w t KJ PJ R C IH]; intro IN.
  - split; [|split].
    + intros n col K L. cbn [app]. apply STOP. cbn in L. lia.
    + intros n lead ws lb tb col K _ X. congruence.
    + intros n ws col _ _ _ X. congruence.
  - destruct (IH (inner_tail _ _ IN)) as (A & _ & _). clear IH.
    assert (W1 : width c = 1%nat) by (apply (width_is c 1%nat 0 127); [unfold between; lia|cbn; tauto]).
    assert (CO : Ascii.eqb c ":" && blankzAt (w ++ rest) = false).
    { destruct (Ascii.eqb_spec c ":") as [->|_]; [|reflexivity]. cbn [andb]. destruct (proj1 IN [] t eq_refl) as (d & q & -> & ND).
      inversion C as [|c' w' t' R' C'|w' t' NF' C'|]; subst; [now apply blankz_visible| |]; now destruct ND. }
    assert (B2 : forall n lead ws lb tb col, (k <= col)%nat -> (6 * List.length (c :: w) + 1 + N0 <= n)%nat -> scanP n k PWord lead ws lb tb col ((c :: w) ++ rest) = Got (joined lead ws lb tb ++ c :: t, rest')).
    { intros n lead ws lb tb col K L. cbn [List.length] in L. destruct n as [|n]; [lia|]. cbn [app scanP]. rewrite blankz_visible by exact R. rewrite CO, W1. cbn [firstn skipn]. rewrite A by lia.
      cbn [afterR]. rewrite <- app_assoc. cbn [app]. destruct lead; [reflexivity|]. cbn [orb joined]. destruct ws; reflexivity. }
    split; [|split].
    + intros n col K L. now apply (B2 n false [] [] [] col).
    + intros n lead ws lb tb col K _ _ L. now apply B2.
    + intros n ws col K P IN2 _ _ L. destruct n as [|[|n]]; try lia. cbn [app scanP]. rewrite blank_visible, break_visible by exact R.
      replace (Nat.ltb col k) with false by (symmetry; apply Nat.ltb_ge; lia). replace (Nat.eqb col 0) with false by (symmetry; apply Nat.eqb_neq; lia). cbn [andb].
      destruct (Ascii.eqb_spec c "#") as [->|_]; [destruct (proj1 (proj2 IN2) [] t eq_refl)|]. apply (B2 n false ws [] [] col K). lia.
  - pose proof (inner_tail _ _ IN) as IN'. destruct (IH IN') as (_ & _ & B). clear IH.
    assert (NW : w <> []). { intros ->. inversion C; subst. destruct (proj2 (proj2 IN) [] eq_refl). }
    split; [|split].
    + intros n col K L. cbn [List.length] in L. destruct n as [|[|n]]; try lia. cbn [app scanP]. rewrite blankz_of. change ((bytev " " =? 32) || (bytev " " =? 9))%Z with true. cbn [orb]. change (isBlank " ") with true. cbn [orb andb]. cbv beta iota. cbn [app].
      now rewrite B by (try assumption; lia).
    + intros n lead ws lb tb col _ O. destruct (O " "%char w eq_refl) as (X & _). destruct X. cbn. tauto.
    + intros n ws col K P IN2 _ _ L. cbn [List.length] in L. destruct n as [|n]; try lia. cbn [app scanP]. change (isBlank " ") with true. cbn [andb]. cbv beta iota. rewrite B by (try assumption; lia). now rewrite <- app_assoc.
  - pose proof (inner_tail _ _ IN) as IN'. destruct (IH IN') as (_ & B & _). clear IH. split; [|split].
    + intros n col K L. cbn [List.length app] in L. rewrite app_length, repeat_length in L. destruct n as [|[|n]]; try lia. cbn [app]. rewrite <- app_assoc. cbn [scanP]. rewrite blankz_of, break_low by (vm_compute; reflexivity).
      change ((bytev newline =? 13) || (bytev newline =? 10))%Z with true. rewrite orb_true_r. cbn [orb]. change (isBlank newline) with false. cbn [orb]. cbv beta iota.
      change (lineBreak (newline :: repeat " "%char j ++ (c :: w) ++ rest)) with ([LF], repeat " "%char j ++ (c :: w) ++ rest). cbv beta iota.
      replace n with (j + Datatypes.S (Datatypes.S (n - j - 2)))%nat by lia. rewrite eat_spaces. cbn [app scanP]. rewrite blank_visible, break_visible by exact R.
      replace (Nat.ltb (0 + j) k) with false by (symmetry; apply Nat.ltb_ge; lia). replace (Nat.eqb (0 + j) 0) with false by (symmetry; apply Nat.eqb_neq; lia). cbn [andb].
      destruct (Ascii.eqb_spec c "#") as [->|_]; [destruct (proj1 (proj2 IN) [] t eq_refl)|].
      assert (O : opening (c :: w)) by now apply visible_open. specialize (B (n - j - 2)%nat true [] [LF] [] (0 + j)%nat ltac:(lia) O ltac:(discriminate) ltac:(cbn [List.length] in *; lia)).
      cbn [app] in B. rewrite B. reflexivity.
    + intros n lead ws lb tb col _ O. destruct (O newline _ eq_refl) as (_ & X). congruence.
    + intros n ws col _ _ _ _ NF. destruct (NF [] (repeat " "%char j ++ c :: w)); [constructor|reflexivity].
Qed.
(** what stops a plain text *)
Lemma stops k rest : follows k rest -> exists rest', forall n col, (6 * List.length rest + 1 <= n)%nat -> scanP n k PWord false [] [] [] col rest = Got ([], rest').
Proof.
  assert (NL : forall j x n col, scanP (Datatypes.S (Datatypes.S (j + n))) k PWord false [] [] [] col (newline :: repeat " "%char j ++ x) = scanP n k PBlanks true [] [LF] [] j x).
  { intros j x n col. cbn [scanP]. rewrite blankz_of, break_low by (vm_compute; reflexivity).
    change ((bytev newline =? 13) || (bytev newline =? 10))%Z with true. rewrite orb_true_r. cbn [orb]. change (isBlank newline) with false. cbn [orb]. cbv beta iota.
    change (lineBreak (newline :: repeat " "%char j ++ x)) with ([LF], repeat " "%char j ++ x). cbv beta iota. now rewrite eat_spaces. }
  intros [->|[->|[(c & r & -> & Hc)|[(j & ->)|(j & c & r & -> & L & R)]]]].
  - exists []. intros n col N. destruct n; [lia|]. reflexivity.
  - eexists. intros n col N. destruct n; [lia|]. cbn [scanP]. reflexivity.
  - exists (":"%char :: c :: r). intros n col N. destruct n; [lia|]. cbn [scanP]. rewrite blankz_visible by (vm_compute; intuition congruence).
    replace (blankzAt (c :: r)) with true; [reflexivity|]. symmetry. rewrite blankz_of. destruct Hc as [->| ->]; [reflexivity|]. rewrite break_low by (vm_compute; reflexivity). reflexivity.
  - exists []. intros n col N. cbn [List.length] in N. rewrite repeat_length in N. replace n with (Datatypes.S (Datatypes.S (j + Datatypes.S (n - j - 3))))%nat by lia.
    rewrite <- (app_nil_r (repeat " "%char j)), NL. reflexivity.
  - exists (c :: r). intros n col N. cbn [List.length] in N. rewrite app_length, repeat_length in N. cbn [List.length] in N. replace n with (Datatypes.S (Datatypes.S (j + Datatypes.S (n - j - 3))))%nat by lia.
    rewrite NL. cbn [scanP]. rewrite blank_visible, break_visible by exact R. now rewrite (proj2 (Nat.ltb_lt _ _) L).
Qed.
Lemma follows_head k rest : follows k rest -> forall r, rest <> "'"%char :: r.
Proof.
  intros [->|[->|[(c & x & -> & Hc)|[(j & ->)|(j & c & x & -> & L & R)]]]] r E; discriminate E.
Qed.
Lemma plain_inner l : plainSafe l -> inner l.
Proof. intros (_ & _ & _ & B & _ & _ & C & D & _). repeat split; assumption. Qed.
Lemma plain_head k c w t : plain k w (c :: t) -> c <> " "%char -> exists w', w = c :: w' /\ plain k w' t.
Proof. intros P N. inversion P; subst; try congruence. eauto. Qed.
Theorem C63_read_plain : forall k w t rest col, plain k w t -> plainSafe t -> follows k rest -> (k <= col)%nat ->
  exists rest', scanScalar k (Datatypes.S col) (w ++ rest) = Got (Plain, t, rest').
Proof.
  intros k w t rest col P S F K. destruct (stops k rest F) as (rest' & ST). exists rest'.
  destruct (reads_plain k rest rest' _ ST w t P (plain_inner t S)) as (A & _).
  destruct S as (NE & FA & NS & _ & H1 & H2 & _). destruct t as [|c t]; [congruence|].
  assert (N : c <> " "%char) by (intros ->; now destruct (NS t)).
  destruct (plain_head k c w t P N) as (w' & -> & P'). inversion FA as [|x y B32 _]; subst. pose proof (visible c B32 N) as R.
  destruct (H1 c t eq_refl) as (H3 & H4).
  assert (HN : forall x, In x (chars "#,[]{}&*!|>'%@`") -> Ascii.eqb c x = false) by (intros x I; apply Ascii.eqb_neq; intros ->; contradiction).
  cbn [app scanScalar]. rewrite (HN "'"%char) by (cbn; tauto). destruct (Ascii.eqb_spec c quote2); [contradiction|].
  assert (PS : plainStart (Datatypes.S col) (c :: w' ++ rest) = true).
  { unfold plainStart. cbn [Nat.eqb andb negb]. rewrite blankz_visible by exact R. cbn [negb andb existsb].
    rewrite (HN ","%char) by (cbn; tauto). rewrite (HN "["%char) by (cbn; tauto). rewrite (HN "]"%char) by (cbn; tauto). rewrite (HN "{"%char) by (cbn; tauto). rewrite (HN "}"%char) by (cbn; tauto). rewrite (HN "#"%char) by (cbn; tauto). rewrite (HN "&"%char) by (cbn; tauto). rewrite (HN "*"%char) by (cbn; tauto). rewrite (HN "!"%char) by (cbn; tauto). rewrite (HN "|"%char) by (cbn; tauto). rewrite (HN ">"%char) by (cbn; tauto). rewrite (HN "'"%char) by (cbn; tauto). rewrite (HN "%"%char) by (cbn; tauto). rewrite (HN "@"%char) by (cbn; tauto). rewrite (HN "`"%char) by (cbn; tauto). destruct (Ascii.eqb_spec c quote2); [contradiction|]. cbn [orb].
    destruct (Ascii.eqb c "-" || (Ascii.eqb c "?" || (Ascii.eqb c ":" || false))) eqn:E.
    - rewrite orb_false_r in E. rewrite !orb_true_iff, !Ascii.eqb_eq in E.
      destruct (H2 c t eq_refl) as (d & q & -> & ND); [destruct E as [->|[->| ->]]; cbn; tauto|].
      destruct (plain_head k d w' q P' ND) as (w2 & -> & _). cbn [app]. rewrite blankz_visible; [apply orb_true_r|].
      inversion FA as [|? ? _ FA2]; subst. inversion FA2; subst. now apply visible.
    - reflexivity. }
  rewrite PS. unfold scanPlain. set (len := List.length (c :: w' ++ rest)). replace (6 * len + 6)%nat with (Datatypes.S (6 * len + 5)) by lia. cbn [scanP Nat.eqb andb].
  rewrite (HN "#"%char) by (cbn; tauto). specialize (A (6 * len + 5)%nat (Datatypes.S col) ltac:(lia)). cbn [app] in A. rewrite A; [reflexivity|].
  unfold len. cbn [List.length]. rewrite app_length. lia.
Qed.
(** * Whole scalars *)
Lemma indent_pos parent : (0 < scalarIndent parent)%nat.
Proof. destruct parent; cbn; lia. Qed.
Theorem C63_double : forall breaks parent p l, utf8Text l ->
  exists w, writeScalar breaks parent p DoubleQuoted l = Done ("034"%char :: w ++ ["034"%char]) /\ content false w l /\ Forall ascii7 w.
Proof.
  intros breaks parent p l U. unfold writeScalar.
  destruct (writes_double breaks (scalarIndent parent) (indent_pos parent) (List.length l) l (Nat.le_refl _) U (List.length l) true false (mkPen (column p + 1) false false) (Nat.le_refl _)) as (w & WD & CW & AW & _).
  { intro I. discriminate I. }
  exists w. rewrite WD. now repeat split.
Qed.
Theorem C63_single : forall breaks parent p l, Forall between32 l ->
  exists w, writeScalar breaks parent p SingleQuoted l = Done ("'"%char :: w ++ ["'"%char]) /\ content true w l /\ Forall ascii7 w.
Proof.
  intros breaks parent p l U. unfold writeScalar.
  destruct (writes_single breaks (scalarIndent parent) (indent_pos parent) l U true false (mkPen (column p + 1) false false)) as (CW & AW & _).
  { intro I. discriminate I. }
  eexists. split; [reflexivity|]. split; assumption.
Qed.
Theorem C63_plain : forall breaks parent p l k, plainSafe l -> (k <= scalarIndent parent)%nat ->
  exists w, writeScalar breaks parent p Plain l = Done w /\ plain k w l /\ Forall ascii7 w.
Proof.
  intros breaks parent p l k S K. destruct S as (NE & FA & NS & NT & _). destruct l as [|c l]; [congruence|].
  assert (N : Ascii.eqb c " " = false) by (apply Ascii.eqb_neq; intros ->; now destruct (NS l)).
  inversion FA as [|x y B32 FR]; subst. cbn [writeScalar writePlain]. unfold isSp. rewrite N.
  destruct (writes_plain breaks (scalarIndent parent) k (indent_pos parent) K l FR) with (spaces := false) (p := mkPen (column p + 1) (whitespace p) false) as (w & WD & CW & AW & _).
  { intros r E. apply (NT (c :: r)). now rewrite E. } { intro I. discriminate I. }
  exists (c :: w). fold isSp. rewrite WD. split; [reflexivity|]. split; [|constructor; [now right|exact AW]].
  constructor; [|exact CW]. apply visible; [exact B32|]. now apply Ascii.eqb_neq.
Qed.
(** what is written is read back, in the same style, wherever it stands *)
Theorem C63_back : forall breaks parent p st l k col,
  match st with Plain => plainSafe l | SingleQuoted => Forall between32 l | DoubleQuoted => utf8Text l | Literal => False end ->
  (k <= scalarIndent parent)%nat -> (k <= col)%nat ->
  exists w, writeScalar breaks parent p st l = Done w /\ Forall ascii7 w /\
    forall rest, follows k rest -> exists rest', scanScalar k (Datatypes.S col) (w ++ rest) = Got (st, l, rest').
Proof.
  intros breaks parent p st l k col H K C. destruct st; [| | |destruct H].
  - destruct (C63_plain breaks parent p l k H K) as (w & W & PW & AW). exists w. split; [exact W|]. split; [exact AW|]. intros rest F. now apply C63_read_plain.
  - destruct (C63_single breaks parent p l H) as (w & W & CW & AW). eexists. split; [exact W|]. split.
    { constructor; [right; vm_compute; intuition congruence|]. apply Forall_app. split; [exact AW|]. constructor; [right; vm_compute; intuition congruence|constructor]. }
    intros rest F. exists rest. cbn [app scanScalar]. change (Ascii.eqb "'" "'") with true. cbv beta iota. rewrite <- app_assoc. cbn [app].
    rewrite (C63_read true w l rest (Datatypes.S col + 1) CW); [reflexivity|intros _; now apply (follows_head k)|lia].
  - destruct (C63_double breaks parent p l H) as (w & W & CW & AW). eexists. split; [exact W|]. split.
    { constructor; [right; vm_compute; intuition congruence|]. apply Forall_app. split; [exact AW|]. constructor; [right; vm_compute; intuition congruence|constructor]. }
    intros rest F. exists rest. cbn [app scanScalar]. change (Ascii.eqb "034" "'") with false. change (Ascii.eqb "034" quote2) with true. cbv beta iota. rewrite <- app_assoc. cbn [app].
    rewrite (C63_read false w l rest (Datatypes.S col + 1) CW); [reflexivity|discriminate|lia].
Qed.
(** every UTF-8 text, as a value or as a key: unless it is written as a literal block, it is
    written in the style [Yaml.emit] says and read back in this style *)
Theorem C63_text : forall key s, utf8Text (chars s) ->
  exists st, (forall pf, emitScalar key (textStyle pf s) s = Done [Scalar (st pf) s]) /\
  forall pf breaks parent p k col, st pf <> Literal -> (k <= scalarIndent parent)%nat -> (k <= col)%nat ->
  exists w, writeScalar breaks parent p (st pf) (chars s) = Done w /\ Forall ascii7 w /\
    forall rest, follows k rest -> exists rest', scanScalar k (Datatypes.S col) (w ++ rest) = Got (st pf, chars s, rest').
Proof.
  intros key s U. destruct (analyze_done (chars s) U) as (a & A).
  exists (fun pf => selectStyle (key && simpleKey a s) a s (textStyle pf s)). split; [intro pf; unfold emitScalar; now rewrite A|].
  intros pf breaks parent p k col NL K C. apply C63_back; try assumption.
  assert (BR : textStyle pf s = Plain -> ~ In newline (chars s)).
  { intro T. unfold textStyle in T. destruct (negb _); [discriminate T|]. destruct (hasBreak (chars s)) eqn:HB; [discriminate T|]. clear - HB. induction (chars s) as [|c l IH]; [tauto|].
    cbn [hasBreak] in HB. apply orb_false_iff in HB as (HB & HR). intros [->|I]; [|now apply IH]. rewrite !orb_false_iff in HB. destruct HB as (((X & _) & _) & _). discriminate X. }
  assert (NE : textStyle pf s = Plain -> chars s <> []).
  { intros T E. destruct s; [|discriminate E]. discriminate T. }
  destruct (selectStyle (key && simpleKey a s) a s (textStyle pf s)) eqn:S.
  - pose proof (select_plain _ _ _ _ S) as T. apply (analyze_plain _ a A); [|now apply NE]. destruct (plainAllowed a) eqn:P; [reflexivity|]. exfalso. revert S. unfold selectStyle. rewrite P. cbn [negb orb].
    destruct ((key && simpleKey a s) && multiline a), (textStyle pf s), (singleAllowed a), (negb (blockAllowed a) || (key && simpleKey a s)); cbn; discriminate.
  - assert (SA : singleAllowed a = true).
    { destruct (singleAllowed a) eqn:P; [reflexivity|]. exfalso. revert S. unfold selectStyle. rewrite P.
      destruct ((key && simpleKey a s) && multiline a), (textStyle pf s), (negb (plainAllowed a) || String.eqb s "" && (key && simpleKey a s)), (negb (blockAllowed a) || (key && simpleKey a s)); cbn; discriminate. }
    assert (T : textStyle pf s = Plain).
    { destruct (textStyle pf s) eqn:T; [reflexivity| | |].
      - exfalso. unfold textStyle in T. destruct (negb _); [discriminate T|]. destruct (hasBreak _); discriminate T.
      - exfalso. revert S. unfold selectStyle. destruct ((key && simpleKey a s) && multiline a), (negb (blockAllowed a) || (key && simpleKey a s)); cbn; discriminate.
      - exfalso. revert S. unfold selectStyle. destruct ((key && simpleKey a s) && multiline a), (negb (blockAllowed a) || (key && simpleKey a s)); cbn; discriminate. }
    destruct (analyze_single _ a A SA) as (FA & _). specialize (BR T). apply Forall_forall. intros c I. rewrite Forall_forall in FA. destruct (FA c I) as [->|B]; [|exact B]. destruct (BR I).
  - exact U.
  - congruence.
Qed.

(** * Concrete cases *)
Fixpoint many (n : nat) (c : ascii) : string := match n with O => "" | Datatypes.S n => String c (many n c) end.
(* a text with escapes, two blanks where the line is full and a character beyond ASCII *)
Definition exText : string := many 80 "a" +++ "  b: " +++ String "009" (String "195" (String "169" "\ --- x")).
Definition exWritten : string := String "034" (many 80 "a" +++ String "010" "    \ b: \t\xE9\\ --- x") +++ String "034" "".
Theorem C63_example :
  textStyle (fun _ => None) exText = Plain /\ emitScalar false (textStyle (fun _ => None) exText) exText = Done [Scalar DoubleQuoted exText] /\
  writeScalar true (Some 2%nat) (mkPen 6 true false) DoubleQuoted (chars exText) = Done (chars exWritten) /\
  scanScalar 3 6 (chars exWritten ++ chars (String "010" "b: x")) = Got (DoubleQuoted, chars exText, chars (String "010" "b: x")).
Proof. vm_compute. repeat split; reflexivity. Qed.
(* a plain text that is continued on a second line, and one between single quotes *)
Theorem C63_example_plain :
  writeScalar true None (mkPen 0 true true) Plain (chars (many 81 "a" +++ " --- x: y" )) = Done (chars (many 81 "a" +++ String "010" "  --- x: y")) /\
  writeScalar true None (mkPen 0 true true) Plain (chars (many 81 "a" +++ " --- x" )) = Done (chars (many 81 "a" +++ String "010" "  --- x")) /\
  scanScalar 0 1 (chars (many 81 "a" +++ String "010" "  --- x") ++ [newline]) = Got (Plain, chars (many 81 "a" +++ " --- x"), []) /\
  (* at the left margin it would end the document *)
  scanScalar 0 1 (chars (many 81 "a" +++ String "010" "--- x")) = Got (Plain, chars (many 81 "a"), chars "--- x") /\
  writeScalar true None (mkPen 0 true true) SingleQuoted (chars "it's # no comment") = Done (chars "'it''s # no comment'") /\
  scanScalar 0 1 (chars "'it''s # no comment'") = Got (SingleQuoted, chars "it's # no comment", []).
Proof. vm_compute. repeat split; reflexivity. Qed.

Print Assumptions C63_read.
Print Assumptions C63_read_plain.
Print Assumptions C63_double.
Print Assumptions C63_single.
Print Assumptions C63_plain.
Print Assumptions C63_back.
Print Assumptions C63_text.
Print Assumptions C63_example.
Print Assumptions C63_example_plain.
