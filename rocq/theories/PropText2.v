(** C27 (base64) and C44 (replace). *)
From Coq Require Import Lia.
From Verif Require Import Core CoreFacts Str StrFacts DecSpec Comparison PropCompare ListFns PropList TextFns PropText.
Ltac Zify.zify_post_hook ::= Z.div_mod_to_equations.

(* ------------------------------------------------------------------ *)
(** * C27 *)

Lemma b64_table : forallb (fun n => match b64val (b64char (Z.of_nat n)) with Some z => z =? Z.of_nat n | None => false end
   && negb (isNL (b64char (Z.of_nat n))) && negb (Ascii.eqb (b64char (Z.of_nat n)) "=")) (seq 0 64) = true.
Proof. vm_compute. reflexivity. Qed.
Lemma b64_char z : 0 <= z < 64 -> b64val (b64char z) = Some z /\ isNL (b64char z) = false /\ b64char z <> "="%char.
Proof.
  intro H. pose proof b64_table as T. rewrite forallb_forall in T. specialize (T (Z.to_nat z)).
  rewrite Z2Nat.id in T by lia. assert (I : In (Z.to_nat z) (seq 0 64)) by (apply in_seq; lia). apply T in I.
  rewrite !andb_true_iff, !negb_true_iff in I. destruct I as [[I1 I2] I3]. split; [|split].
  - destruct (b64val (b64char z)) as [y|]; [|discriminate]. apply Z.eqb_eq in I1. congruence.
  - exact I2.
  - apply Ascii.eqb_neq. exact I3.
Qed.
Lemma b64_pad : b64val "=" = None /\ isNL "=" = false.
Proof. split; reflexivity. Qed.
Lemma byteof_bytev c : byteof (bytev c) = c.
Proof. unfold byteof, bytev. rewrite N2Z.id. apply ascii_N_embedding. Qed.

Lemma list_ind3 {A} (P : list A -> Prop) :
  P [] -> (forall a, P [a]) -> (forall a b, P [a; b]) -> (forall a b c r, P r -> P (a :: b :: c :: r)) -> forall l, P l.
Proof.
  intros H0 H1 H2 H3. assert (X : forall l, P l /\ (forall a, P (a :: l)) /\ forall a b, P (a :: b :: l)); [|apply X].
  induction l as [|x l [I1 [I2 I3]]]; [auto|]. split; [apply I2|]. split; [intro a; apply I3|]. intros a b. apply H3. exact I1.
Qed.
Lemma b64_dec_enc l : b64dec (b64enc l) = Some l.
Proof.
  induction l as [|a|a b|a b c r IH] using list_ind3.
  - reflexivity.
  - pose proof (bytev_range a) as Ra. cbn [b64enc b64dec].
    destruct (b64_char (bytev a / 4)) as [-> _]; [lia|]. destruct (b64_char (bytev a mod 4 * 16)) as [-> _]; [lia|].
    rewrite (proj1 b64_pad). cbn [Ascii.eqb Bool.eqb andb]. do 2 f_equal.
    replace (bytev a / 4 * 4 + bytev a mod 4 * 16 / 16) with (bytev a) by lia. apply byteof_bytev.
  - pose proof (bytev_range a) as Ra. pose proof (bytev_range b) as Rb. cbn [b64enc b64dec].
    destruct (b64_char (bytev a / 4)) as [-> _]; [lia|]. destruct (b64_char (bytev a mod 4 * 16 + bytev b / 16)) as [-> _]; [lia|].
    destruct (b64_char (bytev b mod 16 * 4)) as [-> _]; [lia|].
    rewrite (proj1 b64_pad). cbn [Ascii.eqb Bool.eqb andb]. do 2 f_equal.
    + replace (bytev a / 4 * 4 + (bytev a mod 4 * 16 + bytev b / 16) / 16) with (bytev a) by lia. apply byteof_bytev.
    + f_equal. replace ((bytev a mod 4 * 16 + bytev b / 16) mod 16 * 16 + bytev b mod 16 * 4 / 4) with (bytev b) by lia. apply byteof_bytev.
  - pose proof (bytev_range a) as Ra. pose proof (bytev_range b) as Rb. pose proof (bytev_range c) as Rc. cbn [b64enc b64dec].
    destruct (b64_char (bytev a / 4)) as [-> _]; [lia|]. destruct (b64_char (bytev a mod 4 * 16 + bytev b / 16)) as [-> _]; [lia|].
    destruct (b64_char (bytev b mod 16 * 4 + bytev c / 64)) as [-> _]; [lia|]. destruct (b64_char (bytev c mod 64)) as [-> _]; [lia|].
    rewrite IH. cbn [option_map]. f_equal. f_equal; [|f_equal; [|f_equal]].
    + replace (bytev a / 4 * 4 + (bytev a mod 4 * 16 + bytev b / 16) / 16) with (bytev a) by lia. apply byteof_bytev.
    + replace ((bytev a mod 4 * 16 + bytev b / 16) mod 16 * 16 + (bytev b mod 16 * 4 + bytev c / 64) / 4) with (bytev b) by lia. apply byteof_bytev.
    + replace ((bytev b mod 16 * 4 + bytev c / 64) mod 4 * 64 + bytev c mod 64) with (bytev c) by lia. apply byteof_bytev.
Qed.
Lemma b64_nonl l : Forall (fun c => isNL c = false) (b64enc l).
Proof.
  induction l as [|a|a b|a b c r IH] using list_ind3; cbn [b64enc]; try (pose proof (bytev_range a)); try (pose proof (bytev_range b));
    try (pose proof (bytev_range c)); repeat (apply Forall_cons || apply Forall_nil); try reflexivity; try exact IH; apply b64_char; lia.
Qed.
Lemma b64_len l : Z.of_nat (length (b64enc l)) = 4 * ((Z.of_nat (length l) + 2) / 3).
Proof.
  induction l as [|a|a b|a b c r IH] using list_ind3; try reflexivity. cbn [b64enc length]. lia.
Qed.

(** lines of text joined by line feeds *)
Fixpoint joinL (ls : list (list ascii)) : list ascii :=
  match ls with [] => [] | [x] => x | x :: r => x ++ "010"%char :: joinL r end.
Lemma lines_spec max : (0 < max)%nat -> forall fuel str, (length str <= fuel)%nat -> exists ls,
  lines_loop fuel str max = joinL ls /\ concat ls = str /\ ls <> [] /\
  Forall (fun x => length x = max) (removelast ls) /\ Forall (fun x => (length x <= max)%nat) ls /\
  (str <> [] -> last ls [] <> []).
Proof.
  intro Hm. induction fuel as [|fuel IH]; intros str L; cbn [lines_loop].
  - destruct str; [|cbn in L; lia]. exists [[]]. repeat split; try constructor; try discriminate; try congruence. cbn; lia. constructor.
  - destruct (Nat.ltb_spec max (length str)) as [B|B].
    + destruct (IH (skipn max str)) as [ls [E1 [E2 [E3 [E4 [E5 E6]]]]]]; [rewrite skipn_length; lia|].
      exists (firstn max str :: ls). split; [rewrite E1; destruct ls; [congruence|reflexivity]|].
      split; [cbn [concat]; rewrite E2; apply firstn_skipn|]. split; [discriminate|].
      assert (FL : length (firstn max str) = max) by (rewrite firstn_length; lia).
      split; [destruct ls; [congruence|constructor; assumption]|]. split; [constructor; [lia|exact E5]|].
      intros _. destruct ls as [|x ls]; [congruence|]. cbn [last]. apply E6. intro X.
      assert (Y : length (skipn max str) = 0%nat) by (rewrite X; reflexivity). rewrite skipn_length in Y. lia.
    + exists [str]. split; [reflexivity|]. split; [cbn; apply app_nil_r|]. split; [discriminate|].
      split; [constructor|]. split; [constructor; [exact B|constructor]|]. intro N. exact N.
Qed.
Lemma joinL_filter ls : Forall (Forall (fun c => isNL c = false)) ls ->
  filter (fun c => negb (isNL c)) (joinL ls) = concat ls.
Proof.
  assert (F : forall x, Forall (fun c => isNL c = false) x -> filter (fun c => negb (isNL c)) x = x).
  { intros x H. induction H as [|c x H1 H2 IH]; [reflexivity|]. cbn [filter]. rewrite H1. cbn. f_equal. exact IH. }
  intro H. induction H as [|x ls H1 H2 IH]; [reflexivity|]. destruct ls as [|y ls].
  - cbn. rewrite app_nil_r. apply F. exact H1.
  - cbn [joinL concat]. rewrite filter_app, (F x H1). f_equal. cbn [filter isNL Ascii.eqb Bool.eqb orb negb]. exact IH.
Qed.
Lemma joinL_last ls : last ls [] <> [] -> exists a, joinL ls = a ++ [last (last ls []) "A"%char].
Proof.
  induction ls as [|x ls IH]; intro H; [cbn in H; congruence|]. destruct ls as [|y ls].
  - cbn [joinL last] in *. exists (removelast x). apply app_removelast_last. exact H.
  - cbn [last] in H. destruct (IH H) as [a E]. exists (x ++ "010"%char :: a).
    change (joinL (x :: y :: ls)) with (x ++ "010"%char :: joinL (y :: ls)). rewrite E, <- app_assoc. reflexivity.
Qed.
Lemma in_concat_last {A} (ls : list (list A)) d : last ls [] <> [] -> In (last (last ls []) d) (concat ls).
Proof.
  induction ls as [|x ls IH]; intro H; [cbn in H; congruence|]. destruct ls as [|y ls].
  - cbn [last concat] in *. rewrite app_nil_r. rewrite (app_removelast_last d H) at 2. apply in_or_app. right. left. reflexivity.
  - cbn [concat]. apply in_or_app. right. apply IH. exact H.
Qed.

Lemma encode_lines data max : 0 < max -> exists ls,
  base64Encode data max = joinL ls /\ concat ls = b64enc data /\ ls <> [] /\
  Forall (fun x => Z.of_nat (length x) = max) (removelast ls) /\ Forall (fun x => Z.of_nat (length x) <= max) ls.
Proof.
  intro Hm. unfold base64Encode. rewrite (proj2 (Z.ltb_lt 0 max) Hm).
  destruct (lines_spec (Z.to_nat max) ltac:(lia) (length (b64enc data)) (b64enc data) (le_n _)) as [ls [E1 [E2 [E3 [E4 [E5 E6]]]]]].
  exists ls. split; [|split; [exact E2|split; [exact E3|split]]].
  - rewrite E1. unfold stripNL. destruct (list_eq_dec ascii_dec (b64enc data) []) as [Z|NZ].
    + assert (Z2 : joinL ls = []).
      { rewrite <- E1, Z. reflexivity. }
      rewrite Z2. reflexivity.
    + destruct (joinL_last ls (E6 NZ)) as [a Ea]. rewrite Ea, rev_app_distr. cbn [rev app].
      pose proof (in_concat_last ls "A"%char (E6 NZ)) as I. rewrite E2 in I.
      pose proof (b64_nonl data) as N. rewrite Forall_forall in N. apply N in I. unfold isNL in I.
      apply orb_false_iff in I. destruct I as [-> _]. reflexivity.
  - revert E4. apply Forall_impl. intros x Hx. lia.
  - revert E5. apply Forall_impl. intros x Hx. lia.
Qed.
Lemma encode_filter data max : filter (fun c => negb (isNL c)) (base64Encode data max) = b64enc data.
Proof.
  pose proof (b64_nonl data) as N. destruct (Z_lt_le_dec 0 max) as [L|L].
  - destruct (encode_lines data max L) as [ls [E1 [E2 _]]]. rewrite E1, joinL_filter; [exact E2|].
    apply Forall_forall. intros x Hx. apply Forall_forall. intros c Hc. rewrite Forall_forall in N. apply N. rewrite <- E2.
    apply in_concat. eauto.
  - unfold base64Encode. rewrite (proj2 (Z.ltb_ge 0 max) L). clear L.
    induction N as [|c x H1 H2 IH]; [reflexivity|]. cbn [filter]. rewrite H1. cbn. f_equal. exact IH.
Qed.

(** the ways to call base64 for a text and a line length (-1: not given) *)
Inductive b64_args (s : string) : Z -> list value -> Prop :=
| BA1 : b64_args s (-1) [VStr s]
| BA2 m : b64_args s m [VStr s; VInt m]
| BA3 m t : in64 m -> signed_literal t m -> b64_args s m [VStr s; VStr t].
Lemma b64_args_fn s m args : b64_args s m args -> func_base64 args = OVal (VStr (ofchars (base64Encode (chars s) m))).
Proof.
  intros [ |m'|m' t I L]; try reflexivity. cbn [func_base64].
  rewrite (proj2 (parseInt_literal t m')); [reflexivity|]. split; assumption.
Qed.

(** C27: decoding inverts encoding for every text and every line length *)
Theorem C27_roundtrip : forall s m args, b64_args s m args -> exists t,
  func_base64 args = OVal (VStr t) /\ func_base64_decode [VStr t] = OVal (VStr s).
Proof.
  intros s m args H. eexists. split; [apply (b64_args_fn _ _ _ H)|].
  cbn [func_base64_decode]. rewrite chars_ofchars, encode_filter, b64_dec_enc, ofchars_chars. reflexivity.
Qed.
(** C27: with a positive line length the text consists of lines of exactly that
    length, except for the last one, which is not longer; otherwise of one line;
    line feeds occur only between lines *)
Theorem C27_lines : forall s m args, b64_args s m args -> exists t lines,
  func_base64 args = OVal (VStr t) /\ t = joinS nl lines /\ lines <> [] /\
  Forall (fun x => ~ contains x nl) lines /\
  Z.of_nat (String.length (concatS lines)) = 4 * ((Z.of_nat (String.length s) + 2) / 3) /\
  (0 < m -> Forall (fun x => Z.of_nat (String.length x) <= m) lines /\
            Forall (fun x => Z.of_nat (String.length x) = m) (removelast lines)) /\
  (m <= 0 -> length lines = 1%nat).
Proof.
  intros s m args H.
  assert (X : exists ls, base64Encode (chars s) m = joinL ls /\ concat ls = b64enc (chars s) /\ ls <> [] /\
     (0 < m -> Forall (fun x => Z.of_nat (length x) <= m) ls /\ Forall (fun x => Z.of_nat (length x) = m) (removelast ls)) /\
     (m <= 0 -> length ls = 1%nat)).
  { destruct (Z_lt_le_dec 0 m) as [L|L].
    - destruct (encode_lines (chars s) m L) as [ls [E1 [E2 [E3 [E4 E5]]]]]. exists ls. repeat split; auto. lia.
    - exists [b64enc (chars s)]. unfold base64Encode. rewrite (proj2 (Z.ltb_ge 0 m) L). repeat split; try discriminate; try lia.
      cbn. apply app_nil_r. }
  destruct X as [ls [E1 [E2 [E3 [E4 E5]]]]].
  exists (ofchars (base64Encode (chars s) m)), (map ofchars ls).
  split; [apply (b64_args_fn _ _ _ H)|]. split; [|split; [|split; [|split; [|split]]]].
  - rewrite E1. clear. induction ls as [|x ls IH]; [reflexivity|]. destruct ls as [|y ls]; [reflexivity|].
    change (joinL (x :: y :: ls)) with (x ++ ["010"%char] ++ joinL (y :: ls)). rewrite !ofchars_app, IH. reflexivity.
  - destruct ls; [congruence|discriminate].
  - apply Forall_forall. intros x Hx [i O]. apply in_map_iff in Hx. destruct Hx as [y [<- Hy]].
    apply occ_chars in O. rewrite chars_ofchars in O. destruct O as [a [b [O _]]].
    pose proof (b64_nonl (chars s)) as N. rewrite Forall_forall in N. specialize (N "010"%char). discriminate N.
    rewrite <- E2. apply in_concat. exists y. split; [exact Hy|]. rewrite O. apply in_or_app. right. left. reflexivity.
  - assert (C : concatS (map ofchars ls) = ofchars (b64enc (chars s))).
    { rewrite <- E2. clear. induction ls as [|x ls IH]; [reflexivity|]. cbn [map concat]. rewrite concatS_cons, ofchars_app, IH. reflexivity. }
    rewrite C, <- chars_len, chars_ofchars, b64_len, chars_len. reflexivity.
  - intro L. destruct (E4 L) as [F1 F2].
    assert (LN : forall x, String.length (ofchars x) = length x) by (intro x; rewrite <- chars_len, chars_ofchars; reflexivity).
    split.
    + apply Forall_map. revert F1. apply Forall_impl. intros x Hx. rewrite LN. exact Hx.
    + assert (R : removelast (map ofchars ls) = map ofchars (removelast ls)).
      { clear. induction ls as [|x ls IH]; [reflexivity|]. destruct ls; [reflexivity|]. cbn [map removelast] in *. f_equal. exact IH. }
      rewrite R. apply Forall_map. revert F2. apply Forall_impl. intros x Hx. rewrite LN. exact Hx.
  - rewrite map_length. exact E5.
Qed.
(** The decoder is not injective: unused bits of the last character are ignored. *)
Theorem C27_decode_injective_refuted :
  func_base64_decode [VStr "QQ=="] = OVal (VStr "A") /\ func_base64_decode [VStr "QR=="] = OVal (VStr "A").
Proof. split; reflexivity. Qed.
Example C27_case :
  func_base64 [VStr "hello world"] = OVal (VStr "aGVsbG8gd29ybGQ=") /\
  func_base64 [VStr "hello world"; VInt 6] = OVal (VStr ("aGVsbG" +++ nl +++ "8gd29y" +++ nl +++ "bGQ=")%string) /\
  func_base64_decode [VStr "aGVsbG8gd29ybGQ="] = OVal (VStr "hello world") /\ func_base64_decode [VStr "aGV"] = OErr.
Proof. repeat split. Qed.

(* ------------------------------------------------------------------ *)
(** * C44: replace *)

(** [t] is [s] with the occurrences of [old], taken from the left without
    overlaps, replaced by [new]; at most [n] of them if [n] is given *)
Inductive replaced (old new : string) : option nat -> string -> string -> Prop :=
| RP_none n s : ~ contains s old -> replaced old new n s s
| RP_stop s : replaced old new (Some 0%nat) s s
| RP_step n a b r : n <> Some 0%nat ->
    (forall j, (j < String.length a)%nat -> ~ occurs_at old (a +++ old +++ b)%string j) ->
    replaced old new (option_map Nat.pred n) b r ->
    replaced old new n (a +++ old +++ b)%string (a +++ new +++ r)%string.
(** the empty text occurs before every character and at the end *)
Inductive inserted (new : string) : option nat -> list string -> string -> Prop :=
| IN_stop cs : inserted new (Some 0%nat) cs (concatS cs)
| IN_end n : n <> Some 0%nat -> inserted new n [] new
| IN_cons n c cs t : n <> Some 0%nat -> inserted new (option_map Nat.pred n) cs t -> inserted new n (c :: cs) (new +++ c +++ t)%string.

(** the limit given by the optional fourth argument *)
Definition limit (n : Z) : option nat := if n <? 0 then None else Some (Z.to_nat n).

Inductive replacedL (old new : list ascii) : option nat -> list ascii -> list ascii -> Prop :=
| RL_none n s : (forall i, ~ occL old s i) -> replacedL old new n s s
| RL_stop s : replacedL old new (Some 0%nat) s s
| RL_step n a b r : n <> Some 0%nat -> (forall j, (j < length a)%nat -> ~ occL old (a ++ old ++ b) j) ->
    replacedL old new (option_map Nat.pred n) b r -> replacedL old new n (a ++ old ++ b) (a ++ new ++ r).
Lemma replacedL_replaced old new n s t : replacedL (chars old) (chars new) n s t -> replaced old new n (ofchars s) (ofchars t).
Proof.
  intro H. remember (chars old) as o. remember (chars new) as w.
  induction H as [n s H|s|n a b r N F H IH]; subst.
  - apply RP_none. intros [i O]. apply occ_chars in O. rewrite chars_ofchars in O. exact (H _ O).
  - apply RP_stop.
  - rewrite !ofchars_app, !ofchars_chars. apply RP_step; [exact N| |exact IH].
    intros j Hj O. rewrite <- chars_len, chars_ofchars in Hj. apply (F j Hj). apply occ_chars in O.
    rewrite !chars_app, !chars_ofchars in O. exact O.
Qed.
Lemma replaced_fun old new n s t : old <> "" -> replaced old new n s t -> forall t', replaced old new n s t' -> t = t'.
Proof.
  intros NE H. induction H as [n s H|s|n a b r N F H IH]; intros t' H'.
  - inversion H' as [| |? a b r N F H1]; subst; try reflexivity. exfalso. apply H. exists (String.length a), a, b. split; reflexivity.
  - inversion H' as [| |? a b r N F H1]; subst; try reflexivity. congruence.
  - inversion H' as [? ? X|? X|? a' b' r' N' F' H1 E1 E2]; subst.
    + exfalso. apply X. exists (String.length a), a, b. split; reflexivity.
    + congruence.
    + assert (L : String.length a = String.length a').
      { destruct (Nat.lt_trichotomy (String.length a) (String.length a')) as [Q|[Q|Q]]; [|exact Q|].
        - exfalso. apply (F' _ Q). rewrite E2. exists a, b. split; reflexivity.
        - exfalso. apply (F _ Q). rewrite <- E2. exists a', b'. split; reflexivity. }
      assert (A : a = a').
      { rewrite <- (substring_app_l a (old +++ b)), <- (substring_app_l a' (old +++ b')), E2, L. reflexivity. }
      subst a'. apply sapp_inj_l in E2. apply sapp_inj_l in E2. subst b'. rewrite (IH _ H1). reflexivity.
Qed.

Lemma split_replaced sep new s : sep <> [] -> forall skip n acc, (skip = O \/ acc = []) ->
  (forall i, (i < length acc)%nat -> ~ occL sep (rev acc ++ s) i) ->
  replacedL sep (chars new) n (rev acc ++ skipn skip s) (chars (joinS new (split_aux sep s skip n acc))).
Proof.
  intro NE. induction s as [|c s IH]; intros skip n acc SK I; cbn [split_aux].
  - cbn [joinS]. rewrite chars_ofchars, skipn_nil, app_nil_r. apply RL_none. intros i O.
    pose proof (occL_bound _ _ _ O) as B. rewrite rev_length in B.
    apply (I i); [destruct sep; [congruence|cbn in B; lia]|]. rewrite app_nil_r. exact O.
  - destruct skip as [|k].
    + assert (X : n <> Some 0%nat -> replacedL sep (chars new) n (rev acc ++ c :: s)
         (chars (joinS new (if prefixL sep (c :: s) then ofchars (rev acc) :: split_aux sep s (length sep - 1) (option_map Nat.pred n) [] else split_aux sep s 0 n (c :: acc))))).
      { intro N. destruct (prefixL sep (c :: s)) eqn:P.
        - rewrite join_cons by apply split_aux_ne. rewrite !chars_app, !chars_ofchars.
          pose proof (prefixL_skip _ _ P) as E. 
          assert (E' : rev acc ++ c :: s = rev acc ++ sep ++ skipn (length sep - 1) s).
          { f_equal. rewrite E. f_equal. destruct sep as [|d sep]; [congruence|]. cbn [length skipn]. f_equal. lia. }
          rewrite E'. apply RL_step; [exact N| |].
          + intros j Hj. rewrite rev_length in Hj. rewrite <- E'. apply I. exact Hj.
          + apply (IH (length sep - 1)%nat (option_map Nat.pred n) []); [right; reflexivity|cbn; lia].
        - replace (rev acc ++ c :: s) with (rev (c :: acc) ++ skipn 0 s) by (cbn [rev skipn]; rewrite <- app_assoc; reflexivity).
          apply IH; [left; reflexivity|].
          intros j Hj Oj. cbn [rev] in Oj. rewrite <- app_assoc in Oj. cbn [app] in Oj. cbn [length] in Hj.
          destruct (Nat.eq_dec j (length acc)) as [->|D].
          + replace (length acc) with (length (rev acc) + 0)%nat in Oj by (rewrite rev_length; lia).
            apply occL_app_r in Oj. apply occL_0 in Oj. congruence.
          + apply (I j); [lia|exact Oj]. }
      destruct n as [[|n]|]; [|apply X; discriminate|apply X; discriminate].
      cbn [joinS]. rewrite chars_ofchars. apply RL_stop.
    + destruct SK as [SK| ->]; [discriminate|]. apply (IH k n []); [right; reflexivity|cbn; lia].
Qed.
Lemma replaceS_replaced s old new n : old <> "" -> replaced old new (limit n) s (replaceS s old new n).
Proof.
  intro NE.
  assert (Z0 : n = 0 -> replaced old new (limit n) s s) by (intros ->; apply RP_stop).
  assert (X : n <> 0 -> replaced old new (limit n) s (joinS new (splitN s old (if n <? 0 then -1 else n + 1)))).
  { intro N. rewrite <- (ofchars_chars s) at 1. rewrite <- (ofchars_chars (joinS new _)).
    assert (Q : splitN s old (if n <? 0 then -1 else n + 1) = split_aux (chars old) (chars s) 0 (limit n) []).
    { unfold splitN, limit. destruct (Z.ltb_spec n 0) as [L|L].
      - cbn [Z.eqb Z.ltb Z.compare]. destruct old; [congruence|reflexivity].
      - rewrite (proj2 (Z.eqb_neq (n + 1) 0)) by lia. rewrite (proj2 (Z.ltb_ge (n + 1) 0)) by lia. destruct old; [congruence|].
        do 3 f_equal. lia. }
    rewrite Q. apply replacedL_replaced.
    apply (split_replaced (chars old) new (chars s) ltac:(destruct old; [congruence|discriminate]) 0 (limit n) []); [left; reflexivity|cbn; lia]. }
  unfold replaceS. destruct (Z.eqb_spec n 0) as [->|N].
  - rewrite orb_true_r. apply Z0. reflexivity.
  - rewrite orb_false_r. destruct (String.eqb_spec old new) as [<-|D].
    + specialize (X N). rewrite splitN_join in X; [exact X|exact NE|]. destruct (Z.ltb_spec n 0); lia.
    + unfold replaceNE. rewrite (proj2 (Z.eqb_neq n 0)) by exact N. destruct old; [congruence|]. apply X. exact N.
Qed.

(** the loop for lambda replacements *)
Lemma process_replaced f pat new : pat <> [] -> f (ofchars pat) = Some (ofchars new) ->
  forall fuel b n em cnt, (length b < fuel)%nat -> exists r,
  processReplace f pat fuel b n em cnt = Some (n ++ r) /\ replacedL pat new (limit cnt) b r.
Proof.
  intros NE Hf. induction fuel as [|fuel IH]; intros b n em cnt L; [lia|]. cbn [processReplace].
  destruct (Z.eqb_spec cnt 0) as [->|Nc]; [exists b; split; [reflexivity|apply RL_stop]|].
  destruct (indexL_spec pat b 0) as [[E H]|[k [E [H1 H2]]]]; rewrite E.
  - cbn [Z.ltb Z.compare]. exists b. split; [reflexivity|]. apply RL_none. exact H.
  - rewrite (proj2 (Z.ltb_ge (0 + Z.of_nat k) 0)) by lia. rewrite Z.add_0_l, Nat2Z.id.
    destruct H1 as [a [c [Eb La]]].
    replace (Nat.ltb 0 (k + length pat)) with true by (symmetry; apply Nat.ltb_lt; destruct pat; [congruence|cbn; lia]).
    rewrite orb_true_r, Hf. cbn [option_map]. rewrite chars_ofchars.
    replace (Nat.eqb (length pat) 0) with false by (destruct pat; [congruence|reflexivity]).
    assert (SK : skipn (k + length pat) b = c).
    { rewrite Eb, <- La, app_assoc, <- app_length, skipn_app, skipn_all, Nat.sub_diag. reflexivity. }
    assert (FI : firstn k b = a).
    { rewrite Eb, <- La, firstn_app, firstn_all, Nat.sub_diag. cbn. apply app_nil_r. }
    rewrite SK, FI.
    destruct (IH c ((n ++ a) ++ new) false (if 0 <? cnt then cnt - 1 else cnt)) as [r [E1 R]].
    { rewrite Eb, !app_length in L. destruct pat; [congruence|cbn in L; lia]. }
    exists (a ++ new ++ r). split; [rewrite E1, <- !app_assoc; reflexivity|].
    rewrite Eb. apply RL_step.
    + unfold limit. destruct (Z.ltb_spec cnt 0); [discriminate|]. intro X. injection X as X. lia.
    + intros j Hj. rewrite <- Eb. apply H2. lia.
    + replace (option_map Nat.pred (limit cnt)) with (limit (if 0 <? cnt then cnt - 1 else cnt)); [exact R|].
      unfold limit. destruct (Z.ltb_spec 0 cnt), (Z.ltb_spec cnt 0); try lia.
      * rewrite (proj2 (Z.ltb_ge (cnt - 1) 0)) by lia. cbn. f_equal. lia.
      * reflexivity.
Qed.

Section C44.
Variable ev : value -> string -> option string.

(** the ways to give the limit: none, or a fourth argument *)
Inductive repl_args (s old : string) (dst : value) : Z -> list value -> Prop :=
| RA3 : repl_args s old dst (-1) [VStr s; VStr old; dst]
| RA4 n : repl_args s old dst n [VStr s; VStr old; dst; VInt n].

(** C44: replace(s, old, new[, n]) replaces the first n (all) occurrences *)
Theorem C44_replace : forall s old new n args, old <> "" -> repl_args s old (VStr new) n args -> exists t,
  func_replace ev args = OVal (VStr t) /\ replaced old new (limit n) s t.
Proof.
  intros s old new n args NE H. exists (replaceS s old new n). split; [destruct H; reflexivity|].
  apply replaceS_replaced. exact NE.
Qed.
(** C44: the result is determined by this description *)
Theorem C44_unique : forall s old new n t t', old <> "" ->
  replaced old new n s t -> replaced old new n s t' -> t = t'.
Proof. intros s old new n t t' NE H H'. exact (replaced_fun old new n s t NE H t' H'). Qed.
(** C44: a lambda that yields the text [new] for the match has the same effect *)
Theorem C44_lambda : forall s old new n f args args', old <> "" -> (exists ps va b st rs, f = VLambda ps va b st rs) ->
  ev f old = Some new -> repl_args s old f n args -> repl_args s old (VStr new) n args' ->
  func_replace ev args = func_replace ev args'.
Proof.
  intros s old new n f args args' NE [ps [va [b [st [rs Ef]]]]] Hf H H'.
  destruct (C44_replace s old new n args' NE H') as [t [E R]]. rewrite E.
  assert (A : func_replace ev args = replaceBy ev s old f n) by (destruct H; reflexivity).
  rewrite A. unfold replaceBy. rewrite Ef at 1.
  destruct (process_replaced (ev f) (chars old) (chars new)) with (fuel := S (S (String.length s))) (b := chars s) (n := @nil ascii) (em := true) (cnt := n)
    as [r [E1 R1]].
  - destruct old; [congruence|discriminate].
  - rewrite !ofchars_chars. exact Hf.
  - rewrite chars_len. lia.
  - rewrite E1. cbn [app]. do 2 f_equal. apply replacedL_replaced in R1. rewrite ofchars_chars in R1.
    eapply C44_unique; [exact NE|exact R1|exact R].
Qed.
(** C44: a failing or unresolved lambda makes replace fail, unless there is
    nothing to replace *)
Theorem C44_lambda_fails : forall s old n f args, old <> "" -> (exists ps va b st rs, f = VLambda ps va b st rs) ->
  ev f old = None -> repl_args s old f n args ->
  func_replace ev args = if match limit n with Some O => true | _ => negb (strContains s old) end then OVal (VStr s) else OErr.
Proof.
  intros s old n f args NE [ps [va [b [st [rs Ef]]]]] Hf H.
  assert (A : func_replace ev args = replaceBy ev s old f n) by (destruct H; reflexivity).
  rewrite A. unfold replaceBy. rewrite Ef at 1. cbn [processReplace].
  unfold limit, strContains, strIndex. destruct (Z.eqb_spec n 0) as [->|N].
  - cbn [Z.ltb Z.compare Z.to_nat]. cbn [app]. rewrite ofchars_chars. reflexivity.
  - replace (match (if n <? 0 then None else Some (Z.to_nat n)) with Some O => true | _ => negb (0 <=? indexL (chars old) (chars s) 0) end)
      with (negb (0 <=? indexL (chars old) (chars s) 0)).
    2: { destruct (Z.ltb_spec n 0); [reflexivity|]. destruct (Z.to_nat n) eqn:E; [lia|reflexivity]. }
    destruct (Z.ltb_spec (indexL (chars old) (chars s) 0) 0) as [L|L].
    + rewrite (proj2 (Z.leb_gt _ _) L). cbn [negb app]. rewrite ofchars_chars. reflexivity.
    + rewrite (proj2 (Z.leb_le _ _) L). cbn [negb orb]. rewrite ofchars_chars, Hf. reflexivity.
Qed.

(** C44: the empty text is replaced before every character and at the end *)
Lemma inserted_stop new cs t : inserted new (Some 0%nat) cs t -> t = concatS cs.
Proof. intro H. inversion H; subst; congruence. Qed.
Lemma replaceEmpty_spec cs new n : 0 <= n -> forall i,
  inserted new (Some (Z.to_nat (n - Z.of_nat i))) cs
    (concatS (map (fun ir => if Z.of_nat (fst ir) <? n then (new +++ snd ir)%string else snd ir)
             (combine (seq i (S (length cs))) (cs ++ [""])))).
Proof.
  intro Hn. induction cs as [|c cs IH]; intro i.
  - cbn [length seq app combine map fst snd]. destruct (Z.ltb_spec (Z.of_nat i) n) as [L|L].
    + rewrite sapp_nil_r. cbn [concatS joinS]. apply IN_end. intro X. injection X as X. lia.
    + replace (Z.to_nat (n - Z.of_nat i)) with 0%nat by lia. apply (IN_stop new []).
  - change (seq i (S (length (c :: cs)))) with (i :: seq (S i) (S (length cs))).
    cbn [app combine map fst snd]. rewrite concatS_cons. specialize (IH (S i)).
    destruct (Z.ltb_spec (Z.of_nat i) n) as [L|L].
    + rewrite sapp_assoc. apply IN_cons; [intro X; injection X as X; lia|].
      replace (option_map Nat.pred (Some (Z.to_nat (n - Z.of_nat i)))) with (Some (Z.to_nat (n - Z.of_nat (S i)))); [exact IH|].
      cbn. f_equal. lia.
    + replace (Z.to_nat (n - Z.of_nat (S i))) with 0%nat in IH by lia.
      replace (Z.to_nat (n - Z.of_nat i)) with 0%nat by lia.
      apply inserted_stop in IH. rewrite IH, <- concatS_cons. apply IN_stop.
Qed.
Lemma inserted_all new cs k t : (length cs < k)%nat -> inserted new (Some k) cs t -> inserted new None cs t.
Proof.
  revert k t. induction cs as [|c cs IH]; intros k t L H; inversion H; subst; try (cbn in L; lia).
  - apply IN_end. discriminate.
  - apply IN_cons; [discriminate|]. cbn [option_map] in *. eapply IH; [|eassumption]. cbn in L. lia.
Qed.
Lemma inserted_more new cs k m t : (length cs < k)%nat -> (length cs < m)%nat -> inserted new (Some k) cs t -> inserted new (Some m) cs t.
Proof.
  revert k m t. induction cs as [|c cs IH]; intros k m t L M H; inversion H; subst; try (cbn in L; lia).
  - apply IN_end. intro X. injection X as X. cbn in M. lia.
  - apply IN_cons; [intro X; injection X as X; cbn in M; lia|]. cbn [option_map] in *. eapply IH; [| |eassumption]; cbn in *; lia.
Qed.
Theorem C44_replace_empty : forall s new n args, new <> "" -> validUTF8 s = true -> repl_args s "" (VStr new) n args -> exists t,
  func_replace ev args = OVal (VStr t) /\ inserted new (limit n) (runes s) t.
Proof.
  intros s new n args NE V H. exists (replaceS s "" new n). split; [destruct H; reflexivity|].
  unfold replaceS. destruct new as [|c new]; [congruence|]. cbn [String.eqb orb].
  destruct (Z.eqb_spec n 0) as [->|N].
  - unfold limit. cbn [Z.ltb Z.compare Z.to_nat]. rewrite <- (runes_valid s V) at 2. apply IN_stop.
  - unfold replaceEmpty, limit. destruct (Z.ltb_spec n 0) as [L|L]; cbn [orb].
    + refine (inserted_all _ _ _ _ _ (replaceEmpty_spec (runes s) (String c new) (Z.of_nat (length (runes s)) + 1) _ 0)); lia.
    + destruct (Z.ltb_spec (Z.of_nat (length (runes s)) + 1) n) as [Q|Q].
      * refine (inserted_more _ _ _ _ _ _ _ (replaceEmpty_spec (runes s) (String c new) (Z.of_nat (length (runes s)) + 1) _ 0)); lia.
      * replace (Z.to_nat n) with (Z.to_nat (n - Z.of_nat 0)) by (f_equal; cbn; lia). apply replaceEmpty_spec. lia.
Qed.
Example C44_case : 
  func_replace ev [VStr "banana"; VStr "an"; VStr "o"] = OVal (VStr "booa") /\
  func_replace ev [VStr "banana"; VStr "ana"; VStr "o"; VInt 1] = OVal (VStr "bona") /\
  func_replace ev [VStr "ab"; VStr ""; VStr "-"] = OVal (VStr "-a-b-") /\
  validUTF8 "ab" = true /\ repl_args "ab" "" (VStr "-") (-1) [VStr "ab"; VStr ""; VStr "-"].
Proof. repeat split; constructor. Qed.
End C44.

Print Assumptions C27_roundtrip.
Print Assumptions C27_lines.
Print Assumptions C27_decode_injective_refuted.
Print Assumptions C44_replace.
Print Assumptions C44_unique.
Print Assumptions C44_lambda.
Print Assumptions C44_lambda_fails.
Print Assumptions C44_replace_empty.
