(** C26 (split, join, trim), C27 (base64), C44 (replace). *)
From Coq Require Import Lia.
From Verif Require Import Core CoreFacts Str StrFacts DecSpec Comparison PropCompare ListFns PropList TextFns.

(* ------------------------------------------------------------------ *)
(** * C26: specification *)

(** [p] occurs somewhere in [s] *)
Definition contains (s p : string) : Prop := exists i, occurs_at p s i.

(* ------------------------------------------------------------------ *)
(** * Lemmas about join and split *)

Lemma join_cons sep x l : l <> [] -> joinS sep (x :: l) = (x +++ sep +++ joinS sep l)%string.
Proof. destruct l; [congruence|reflexivity]. Qed.
Lemma split_aux_ne sep s : forall skip n acc, split_aux sep s skip n acc <> [].
Proof.
  induction s as [|c s IH]; intros skip n acc; cbn [split_aux]; [discriminate|].
  destruct skip; [|apply IH]. destruct n as [[|n]|]; [discriminate| |];
    (destruct (prefixL sep (c :: s)); [discriminate|apply IH]).
Qed.
Lemma prefixL_skip p s : prefixL p s = true -> s = p ++ skipn (length p) s.
Proof.
  intro H. apply prefixL_spec in H. destruct H as [b ->]. rewrite skipn_app, skipn_all, Nat.sub_diag. reflexivity.
Qed.
Lemma split_aux_join sep s : sep <> [] -> forall skip n acc,
  chars (joinS (ofchars sep) (split_aux sep s skip n acc)) = rev acc ++ skipn skip s.
Proof.
  intro NE. induction s as [|c s IH]; intros skip n acc; cbn [split_aux].
  - cbn [joinS]. rewrite chars_ofchars, skipn_nil, app_nil_r. reflexivity.
  - destruct skip as [|k]; [|apply IH].
    assert (X : forall n', chars (joinS (ofchars sep)
      (if prefixL sep (c :: s) then ofchars (rev acc) :: split_aux sep s (length sep - 1) n' [] else split_aux sep s 0 n (c :: acc)))
      = rev acc ++ c :: s).
    { intro n'. destruct (prefixL sep (c :: s)) eqn:P.
      - rewrite join_cons by apply split_aux_ne. rewrite !chars_app, !chars_ofchars, IH. cbn [rev app]. f_equal.
        apply prefixL_skip in P. transitivity (sep ++ skipn (length sep) (c :: s)); [|symmetry; exact P]. f_equal. destruct sep as [|d sep]; [congruence|]. cbn [length skipn].
        f_equal. lia.
      - rewrite IH. cbn [rev skipn]. rewrite <- app_assoc. reflexivity. }
    destruct n as [[|n]|]; [|apply X|apply X]. cbn [joinS]. rewrite chars_ofchars. reflexivity.
Qed.
Lemma splitN_join s sep n : sep <> "" -> n <> 0 -> joinS sep (splitN s sep n) = s.
Proof.
  intros Hs Hn. unfold splitN. rewrite (proj2 (Z.eqb_neq n 0)) by exact Hn.
  destruct sep as [|c sep]; [congruence|]. set (p := String c sep).
  rewrite <- (ofchars_chars (joinS p _)).
  replace p with (ofchars (chars p)) at 1 by apply ofchars_chars.
  rewrite split_aux_join by discriminate. apply ofchars_chars.
Qed.
Lemma split_aux_len sep s : forall skip k acc, (length (split_aux sep s skip (Some k) acc) <= S k)%nat.
Proof.
  induction s as [|c s IH]; intros skip k acc; cbn [split_aux]; [cbn; lia|].
  destruct skip; [|apply IH]. destruct k as [|k]; [cbn; lia|].
  destruct (prefixL sep (c :: s)); [|apply IH]. cbn [length option_map Nat.pred]. specialize (IH (length sep - 1)%nat k []). lia.
Qed.
Lemma occL_bound p s i : occL p s i -> (i + length p <= length s)%nat.
Proof. intros [a [b [E L]]]. subst. rewrite !app_length. lia. Qed.
Lemma occL_ext p s t i : occL p s i -> occL p (s ++ t) i.
Proof. intros [a [b [E H]]]. subst s. exists a, (b ++ t). split; [rewrite <- !app_assoc; reflexivity|exact H]. Qed.
Lemma occL_app_r p a s i : occL p s i <-> occL p (a ++ s) (length a + i).
Proof.
  induction a as [|c a IH]; cbn [app length Nat.add]; [reflexivity|]. rewrite IH. symmetry. apply occL_S.
Qed.
Lemma split_pieces sep s : sep <> [] -> forall skip acc, (skip = O \/ acc = []) ->
  (forall i, (i < length acc)%nat -> ~ occL sep (rev acc ++ s) i) ->
  forall p, In p (split_aux sep s skip None acc) -> forall i, ~ occL sep (chars p) i.
Proof.
  intro NE. induction s as [|c s IH]; intros skip acc SK I p H i O; cbn [split_aux] in H.
  - destruct H as [<-|[]]. rewrite chars_ofchars in O. pose proof (occL_bound _ _ _ O) as B. rewrite rev_length in B.
    apply (I i); [destruct sep; [congruence|cbn in B; lia]|]. rewrite app_nil_r. exact O.
  - destruct skip as [|k].
    + destruct (prefixL sep (c :: s)) eqn:P.
      * destruct H as [<-|H].
        -- rewrite chars_ofchars in O. pose proof (occL_bound _ _ _ O) as B. rewrite rev_length in B.
           apply (I i); [destruct sep; [congruence|cbn in B; lia]|]. apply occL_ext. exact O.
        -- eapply (IH (length sep - 1)%nat []); [right; reflexivity|cbn; lia|exact H|exact O].
      * eapply (IH 0%nat (c :: acc)); [left; reflexivity| |exact H|exact O].
        intros j Hj Oj. cbn [rev] in Oj. rewrite <- app_assoc in Oj. cbn [app] in Oj. cbn [length] in Hj.
        destruct (Nat.eq_dec j (length acc)) as [->|D].
        -- replace (length acc) with (length (rev acc) + 0)%nat in Oj by (rewrite rev_length; lia).
           apply occL_app_r in Oj. apply occL_0 in Oj. congruence.
        -- apply (I j); [lia|exact Oj].
    + destruct SK as [SK| ->]; [discriminate|].
      eapply (IH k []); [right; reflexivity|cbn; lia|exact H|exact O].
Qed.

(** ** runes *)
Lemma concatS_cons x l : concatS (x :: l) = (x +++ concatS l)%string.
Proof. unfold concatS. destruct l; [symmetry; apply sapp_nil_r|reflexivity]. Qed.
Lemma concatS_app l l' : concatS (l ++ l') = (concatS l +++ concatS l')%string.
Proof.
  induction l as [|x l IH]; [reflexivity|]. cbn [app]. rewrite !concatS_cons, IH, sapp_assoc. reflexivity.
Qed.
Lemma if_P {A} (P : A -> Prop) (b : bool) x y : P x -> P y -> P (if b then x else y).
Proof. destruct b; auto. Qed.
Lemma rune_width_bound s : s <> [] -> (1 <= fst (rune_width s) <= length s)%nat.
Proof.
  destruct s as [|c r]; [congruence|]. intros _. unfold rune_width.
  set (P := fun x : nat * bool => (1 <= fst x <= length (c :: r))%nat). change (P (
    let b := bytev c in if b <? 128 then (1, true)%nat else
        let need (n : nat) (lo hi : Z) :=
          match n, r with
          | 2%nat, c1 :: _ => if cont lo hi c1 then (2, true)%nat else (1, false)%nat
          | 3%nat, c1 :: c2 :: _ => if cont lo hi c1 && cont 128 191 c2 then (3, true)%nat else (1, false)%nat
          | 4%nat, c1 :: c2 :: c3 :: _ =>
              if cont lo hi c1 && cont 128 191 c2 && cont 128 191 c3 then (4, true)%nat else (1, false)%nat
          | _, _ => (1, false)%nat
          end in
        if (194 <=? b) && (b <=? 223) then need 2%nat 128 191
        else if b =? 224 then need 3%nat 160 191
        else if b =? 237 then need 3%nat 128 159
        else if (225 <=? b) && (b <=? 239) then need 3%nat 128 191
        else if b =? 240 then need 4%nat 144 191
        else if (241 <=? b) && (b <=? 243) then need 4%nat 128 191
        else if b =? 244 then need 4%nat 128 143
        else (1, false)%nat)).
  assert (P1 : forall x, P (1%nat, x)) by (intro x; unfold P; cbn [fst length]; lia).
  assert (N2 : forall lo hi, P (match r with c1 :: _ => if cont lo hi c1 then (2, true)%nat else (1, false)%nat | [] => (1, false)%nat end)).
  { intros lo hi. destruct r; [apply P1|]. apply if_P; [unfold P; cbn [fst length]; lia|apply P1]. }
  assert (N3 : forall lo hi, P (match r with c1 :: c2 :: _ => if cont lo hi c1 && cont 128 191 c2 then (3, true)%nat else (1, false)%nat | _ => (1, false)%nat end)).
  { intros lo hi. destruct r as [|? [|? r]]; try apply P1. apply if_P; [unfold P; cbn [fst length]; lia|apply P1]. }
  assert (N4 : forall lo hi, P (match r with c1 :: c2 :: c3 :: _ => if cont lo hi c1 && cont 128 191 c2 && cont 128 191 c3 then (4, true)%nat else (1, false)%nat | _ => (1, false)%nat end)).
  { intros lo hi. destruct r as [|? [|? [|? r]]]; try apply P1. apply if_P; [unfold P; cbn [fst length]; lia|apply P1]. }
  cbv zeta. repeat (apply if_P); auto; try apply N2; try apply N3; try apply N4.
Qed.
Lemma runes_concat s : forall skip, valid_aux s skip = true -> concatS (runes_aux s skip) = ofchars (skipn skip s).
Proof.
  induction s as [|c s IH]; intros skip V; cbn [runes_aux valid_aux] in *; [rewrite skipn_nil; reflexivity|].
  destruct skip as [|k]; [|apply IH; exact V].
  pose proof (rune_width_bound (c :: s) ltac:(discriminate)) as B.
  destruct (rune_width (c :: s)) as [w ok]. apply andb_true_iff in V. destruct V as [-> V]. cbn [fst] in B.
  rewrite concatS_cons, IH by exact V. rewrite <- ofchars_app. f_equal. cbn [skipn].
  destruct w as [|w]; [lia|]. cbn [firstn app]. replace (S w - 1)%nat with w by lia. rewrite firstn_skipn. reflexivity.
Qed.
(** the runes of a valid text concatenate to the text *)
Lemma runes_valid s : validUTF8 s = true -> concatS (runes s) = s.
Proof. intro V. unfold runes. rewrite runes_concat by exact V. apply ofchars_chars. Qed.

Section C.
Variable source : string.

(** the texts of a list of text nodes *)
Definition texts (l : list node) (ss : list string) : Prop := map val l = map VStr ss.
Lemma texts_map ss : texts (map (fun e => newNode (VStr e) source) ss) ss.
Proof. unfold texts. rewrite map_map. reflexivity. Qed.
Lemma texts_inj l ss ss' : texts l ss -> texts l ss' -> ss = ss'.
Proof.
  unfold texts. intros H1 H2. rewrite H1 in H2. revert ss' H2. clear. induction ss as [|s ss IH]; intros [|s' ss'] H; try discriminate; [reflexivity|].
  cbn in H. injection H as -> H. f_equal. apply IH. exact H.
Qed.
Lemma join_elems_texts l ss : texts l ss -> join_elems l = Some ss.
Proof.
  unfold texts. revert ss. induction l as [|n l IH]; intros [|s ss] H; try discriminate; [reflexivity|].
  cbn in H. injection H as H1 H2. cbn [join_elems]. rewrite H1, (IH _ H2). reflexivity.
Qed.

(** C26: joining the pieces of a split with the separator restores the text, for
    every text, non-empty separator and limit other than 0 *)
Theorem C26_join_split : forall s sep args n, sep <> "" ->
  (args = [VStr sep; VStr s] /\ n = -1 \/ args = [VStr sep; VStr s; VInt n] /\ n <> 0) ->
  exists l, func_split source args = OVal (VList l) /\ func_join [VStr sep; VList l] = OVal (VStr s).
Proof.
  intros s sep args n Hs H.
  assert (E : func_split source args = OVal (VList (map (fun e => newNode (VStr e) source) (splitN s sep n))) /\ n <> 0).
  { destruct H as [[-> ->]|[-> Hn]]; (split; [reflexivity|lia]). }
  destruct E as [E Hn]. eexists. split; [exact E|].
  cbn [func_join join_args join_arg searchText option_map]. rewrite (join_elems_texts _ _ (texts_map _)).
  cbn [app]. rewrite app_nil_r, splitN_join by assumption. reflexivity.
Qed.
(** C26: without limit no piece contains the separator; with limit n > 0 there
    are at most n pieces *)
Theorem C26_split_pieces : forall s sep, sep <> "" -> exists l ss,
  func_split source [VStr sep; VStr s] = OVal (VList l) /\ texts l ss /\ forall p, In p ss -> ~ contains p sep.
Proof.
  intros s sep Hs. do 2 eexists. split; [reflexivity|]. split; [apply texts_map|].
  intros p H [i O]. apply occ_chars in O. revert O. destruct sep as [|c sep]; [congruence|].
  apply (split_pieces (chars (String c sep)) (chars s) ltac:(discriminate) 0 []); [left; reflexivity|cbn; lia|exact H].
Qed.
Theorem C26_split_limit : forall s sep n, sep <> "" -> 0 < n -> exists l,
  func_split source [VStr sep; VStr s; VInt n] = OVal (VList l) /\ (1 <= Z.of_nat (length l) <= n).
Proof.
  intros s sep n Hs Hn. eexists. split; [reflexivity|]. rewrite map_length. unfold splitN.
  rewrite (proj2 (Z.eqb_neq n 0)) by lia. destruct sep as [|c sep]; [congruence|].
  rewrite (proj2 (Z.ltb_ge n 0)) by lia.
  pose proof (split_aux_len (chars (String c sep)) (chars s) 0 (Nat.pred (Z.to_nat n)) []) as L.
  pose proof (split_aux_ne (chars (String c sep)) (chars s) 0 (Some (Nat.pred (Z.to_nat n))) []) as N.
  destruct (split_aux _ _ _ _ _); [congruence|]. cbn [length] in *. lia.
Qed.

(** C26: for a one-character separator splitting inverts joining, if no piece
    contains it *)
Lemma split_char c l acc : l <> [] -> Forall (fun p => ~ In c (chars p)) l ->
  split_aux [c] (chars (joinS (schr c) l)) 0 None acc = match l with [] => [] | x :: r => ofchars (rev acc ++ chars x) :: r end.
Proof.
  assert (S : forall p s acc, ~ In c p -> split_aux [c] (p ++ s) 0 None acc = split_aux [c] s 0 None (rev p ++ acc)).
  { clear. induction p as [|d p IH]; intros s acc N; [reflexivity|]. cbn [app split_aux prefixL].
    destruct (Ascii.eqb_spec c d) as [->|D]; [exfalso; apply N; left; reflexivity|]. cbn [andb].
    rewrite IH by (intro X; apply N; right; exact X). cbn [rev]. rewrite <- app_assoc. reflexivity. }
  revert acc. induction l as [|x l IH]; intros acc NE F; [congruence|].
  inversion F as [|? ? F1 F2]; subst. destruct l as [|y l].
  - cbn [joinS]. rewrite <- (app_nil_r (chars x)) at 1. rewrite S by exact F1. cbn [split_aux].
    rewrite rev_app_distr, rev_involutive. reflexivity.
  - rewrite join_cons by discriminate. rewrite chars_app. rewrite S by exact F1.
    cbn [chars schr list_ascii_of_string append split_aux prefixL]. rewrite Ascii.eqb_refl. cbn [andb length Nat.sub].
    change (list_ascii_of_string (joinS (schr c) (y :: l))) with (chars (joinS (schr c) (y :: l))).
    rewrite IH by (discriminate || exact F2). cbn [rev app]. rewrite rev_app_distr, rev_involutive, ofchars_chars. reflexivity.
Qed.
Theorem C26_split_join : forall c l ss, ss <> [] -> texts l ss -> Forall (fun p => ~ contains p (schr c)) ss ->
  exists s r, func_join [VStr (schr c); VList l] = OVal (VStr s) /\
    func_split source [VStr (schr c); VStr s] = OVal (VList r) /\ texts r ss.
Proof.
  intros c l ss N T F. exists (joinS (schr c) ss). eexists. split; [|split; [reflexivity|]].
  - cbn [func_join join_args join_arg searchText option_map]. rewrite (join_elems_texts _ _ T). cbn [app]. rewrite app_nil_r. reflexivity.
  - cbv beta. replace (splitN (joinS (schr c) ss) (schr c) (-1)) with ss; [apply texts_map|].
    unfold splitN. cbn [schr Z.eqb Z.ltb Z.compare]. change (String c "") with (schr c). change (chars (schr c)) with [c].
    rewrite split_char; [|exact N|].
    + destruct ss; [congruence|]. cbn [rev app]. rewrite ofchars_chars. reflexivity.
    + revert F. apply Forall_impl. intros p H X. apply H. apply in_split in X. destruct X as [a [b X]].
      exists (length a). apply occ_chars. exists a, b. split; [exact X|reflexivity].
Qed.

(** C26: splitting by a length yields pieces of at most that many characters
    whose concatenation is the text (valid UTF-8), at most n pieces if limited *)
Lemma split_len_loop_spec rs max : 0 < max -> forall pre n,
  in64 n -> (Z.of_nat (length pre) <= max \/ n = 0 \/ n = 1) ->
  exists pieces, split_len_loop rs max (concatS pre) (Z.of_nat (length pre)) n = map concatS pieces /\
    concat pieces = pre ++ rs /\ Forall (fun p => p <> []) pieces /\
    Forall (fun p => Z.of_nat (length p) <= max) (removelast pieces) /\
    (0 < n -> Z.of_nat (length pieces) <= n) /\
    ((n < 0 \/ Z.of_nat (length rs) < n) -> Z.of_nat (length rs) < max64 -> Z.of_nat (length pre) <= max ->
       Forall (fun p => Z.of_nat (length p) <= max) pieces).
Proof.
  intros Hm. induction rs as [|c rs IH]; intros pre n Hn HB; cbn [split_len_loop].
  - destruct (Z.ltb_spec 0 (Z.of_nat (length pre))) as [L|L].
    + exists [pre]. split; [reflexivity|]. split; [cbn; rewrite !app_nil_r; reflexivity|].
      split; [constructor; [intro X; subst; cbn in L; lia|constructor]|]. split; [constructor|]. split; [cbn; lia|].
      intros _ _ B. constructor; [exact B|constructor].
    + exists []. destruct pre; [|cbn in L; lia]. split; [reflexivity|]. split; [reflexivity|]. repeat split; try constructor. cbn. lia.
  - destruct ((max <=? Z.of_nat (length pre)) && ((n <? 0) || (1 <? n))) eqn:C.
    + apply andb_true_iff in C. destruct C as [C1 C2]. apply Z.leb_le in C1. apply orb_true_iff in C2. rewrite !Z.ltb_lt in C2.
      assert (W : wrap64 (n - 1) = if n =? min64 then max64 else n - 1).
      { unfold wrap64, in64, min64, max64, two63, two64 in *.
        destruct (Z.eqb_spec n (-9223372036854775808)) as [->|D]; [reflexivity|]. rewrite Z.mod_small; lia. }
      assert (IN : in64 (wrap64 (n - 1))).
      { rewrite W. unfold in64, min64, max64 in *. destruct (Z.eqb_spec n (-9223372036854775808)); lia. }
      destruct (IH [c] (wrap64 (n - 1)) IN) as [ps [E1 [E2 [E3 [E4 [E5 E6]]]]]]; [left; cbn; lia|].
      assert (NP : pre <> []) by (intro X; subst; cbn in C1; lia).
      assert (LP : Z.of_nat (length pre) <= max).
      { destruct HB as [HB|[HB|HB]]; lia. }
      assert (NN : ps <> []) by (intro X; subst; discriminate E2).
      exists (pre :: ps). split; [cbn [map]; f_equal; etransitivity; [|exact E1]; reflexivity|].
      split; [cbn [concat]; rewrite E2; reflexivity|]. split; [constructor; assumption|]. split; [|split].
      * destruct ps; [congruence|]. cbn [removelast] in *. constructor; [exact LP|exact E4].
      * intro H. cbn [length]. destruct (Z.eqb_spec n min64) as [->|D]; [unfold min64 in *; lia|]. rewrite W in E5. lia.
      * intros H1 H2 H3. constructor; [exact LP|]. cbn [length] in *. apply E6; [|lia|cbn; lia].
        rewrite W. destruct (Z.eqb_spec n min64) as [->|D]; [right; lia|]. lia.
    + replace (concatS pre +++ c)%string with (concatS (pre ++ [c]))
        by (rewrite concatS_app; f_equal).
      replace (Z.of_nat (length pre) + 1) with (Z.of_nat (length (pre ++ [c]))) by (rewrite app_length; cbn; lia).
      assert (C' : Z.of_nat (length pre) < max \/ n = 0 \/ n = 1).
      { apply andb_false_iff in C. rewrite orb_false_iff in C. destruct C as [C|[C1 C2]].
        - left. apply Z.leb_gt. exact C.
        - right. apply Z.ltb_ge in C1, C2. lia. }
      destruct (IH (pre ++ [c]) n Hn) as [ps [E1 [E2 [E3 [E4 [E5 E6]]]]]].
      { destruct C' as [C'|C']; [left; rewrite app_length; cbn; lia|right; exact C']. }
      exists ps. split; [exact E1|]. split; [rewrite E2, <- app_assoc; reflexivity|].
      split; [exact E3|]. split; [exact E4|]. split; [exact E5|].
      intros H1 H2 H3. cbn [length] in *. apply E6; [lia|lia|]. rewrite app_length. cbn [length]. 
      destruct C' as [C'|C']; lia.
Qed.
Theorem C26_split_length : forall s max n args, 0 < max -> in64 n -> Z.of_nat (length (runes s)) < max64 ->
  (args = [VInt max; VStr s] /\ n = -1 \/ args = [VInt max; VStr s; VInt n]) ->
  exists l pieces, func_split source args = OVal (VList l) /\ texts l (map concatS pieces) /\
    concat pieces = runes s /\ Forall (fun p => p <> []) pieces /\
    Forall (fun p => Z.of_nat (length p) <= max) (removelast pieces) /\
    (n < 0 -> Forall (fun p => Z.of_nat (length p) <= max) pieces) /\
    (0 < n -> Z.of_nat (length pieces) <= n) /\
    (validUTF8 s = true -> concatS (map concatS pieces) = s).
Proof.
  intros s max n args Hm Hn Hl H.
  assert (E : func_split source args = OVal (VList (map (fun e => newNode (VStr e) source) (split_len s max n)))).
  { destruct H as [[-> ->]| ->]; cbn [func_split]; destruct (Z.leb_spec max 0); try lia; reflexivity. }
  destruct (split_len_loop_spec (runes s) max Hm [] n Hn) as [ps [E1 [E2 [E3 [E4 [E5 E6]]]]]]; [left; cbn; lia|].
  eexists. exists ps. split; [exact E|]. split; [|split; [exact E2|split; [exact E3|split; [exact E4|split; [|split; [exact E5|]]]]]].
  - unfold split_len. change "" with (concatS []). change 0 with (Z.of_nat (@length string [])). rewrite E1. apply texts_map.
  - intro Q. apply E6; [left; exact Q|exact Hl|cbn; lia].
  - intro V. transitivity (concatS (runes s)); [|apply runes_valid; exact V]. rewrite app_nil_l in E2. rewrite <- E2.
    clear. induction ps as [|p ps IH]; [reflexivity|]. cbn [map concat]. rewrite concatS_cons, concatS_app, IH. reflexivity.
Qed.
(** An invalid UTF-8 text is changed by splitting: broken bytes are replaced. *)
Theorem C26_split_length_refuted :
  let s := schr "255" in exists l t, func_split source [VInt 5; VStr s] = OVal (VList l) /\
    func_join [VStr ""; VList l] = OVal (VStr t) /\ t <> s /\ validUTF8 s = false.
Proof. do 2 eexists. split; [reflexivity|]. split; [reflexivity|]. split; [discriminate|reflexivity]. Qed.

(** C26: an empty separator cuts after every character *)
Theorem C26_split_chars : forall s, exists l, func_split source [VStr ""; VStr s] = OVal (VList l) /\ texts l (runes s) /\
  (validUTF8 s = true -> func_join [VStr ""; VList l] = OVal (VStr s)).
Proof.
  intro s. eexists. split; [reflexivity|]. split; [apply texts_map|].
  intro V. cbn [func_join join_args join_arg searchText option_map]. rewrite (join_elems_texts _ _ (texts_map _)).
  cbn [app]. rewrite app_nil_r. do 2 f_equal. apply runes_valid. exact V.
Qed.

(** C26: join on arbitrary arguments: the separator followed by scalars and
    lists of scalars, nil arguments being ignored *)
Inductive joined_texts : value -> list string -> Prop :=
| JT_scalar v s : search_text v s -> joined_texts v [s]
| JT_nil : joined_texts VNil []
| JT_list l ss : Forall2 (fun n s => search_text (val n) s) l ss -> joined_texts (VList l) ss.
Lemma join_elems_spec l ss : Forall2 (fun n s => search_text (val n) s) l ss -> join_elems l = Some ss.
Proof. intro H. induction H as [|n s l ss H1 H2 IH]; [reflexivity|]. cbn [join_elems]. rewrite (search_text_fn _ _ H1), IH. reflexivity. Qed.
Theorem C26_join : forall sepv sep args tss, search_text sepv sep -> Forall2 joined_texts args tss ->
  func_join (sepv :: args) = OVal (VStr (joinS sep (concat tss))).
Proof.
  intros sepv sep args tss H F.
  assert (X : join_args false args = Some (concat tss)).
  { induction F as [|v ts args tss H1 F IH]; [reflexivity|]. cbn [join_args concat]. rewrite IH.
    destruct H1 as [v s H1| |l ss H1].
    - destruct H1; reflexivity.
    - reflexivity.
    - cbn [join_arg]. rewrite (join_elems_spec _ _ H1). reflexivity. }
  cbn [func_join join_args]. rewrite X. destruct H; reflexivity.
Qed.
(** no text at all crashes: join(~), trim() *)
Theorem C26_panic_refuted : func_join [VNil] = OPanic /\ func_trim source [] = OPanic.
Proof. split; reflexivity. Qed.

(** ** trim *)
Definition in_cut (cut c : string) : Prop := In c (runes cut).
(** [rs] is [ls] without leading and trailing characters of [cut]: only such
    characters are removed and none is left at the ends *)
Definition trimmed (cut : string) (ls rs : list string) : Prop :=
  exists a b, ls = a ++ rs ++ b /\ Forall (in_cut cut) a /\ Forall (in_cut cut) b /\
    (forall c r, rs = c :: r -> ~ in_cut cut c) /\ (forall c r, rs = r ++ [c] -> ~ in_cut cut c).
Lemma inset_spec cut c : inset (runes cut) c = true <-> in_cut cut c.
Proof.
  unfold inset, in_cut. rewrite existsb_exists. split; [intros [x [H E]]; apply String.eqb_eq in E; subst; exact H|].
  intro H. exists c. split; [exact H|apply String.eqb_refl].
Qed.
Lemma dropset_spec cut l : exists a, l = a ++ dropset (runes cut) l /\ Forall (in_cut cut) a /\
  (forall c r, dropset (runes cut) l = c :: r -> ~ in_cut cut c).
Proof.
  induction l as [|c l [a [E [F N]]]]; cbn [dropset].
  - exists []. repeat split; [constructor|]. intros c r H. discriminate H.
  - destruct (inset (runes cut) c) eqn:I.
    + exists (c :: a). split; [cbn; f_equal; exact E|]. split; [constructor; [apply inset_spec; exact I|exact F]|exact N].
    + exists []. split; [reflexivity|]. split; [constructor|]. intros d r H. injection H as <- <-.
      intro X. apply inset_spec in X. congruence.
Qed.
Lemma trim_runes s cut : exists rs, trim s cut = concatS rs /\ trimmed cut (runes s) rs.
Proof.
  unfold trim. set (l1 := dropset (runes cut) (runes s)). set (l2 := dropset (runes cut) (rev l1)).
  destruct (dropset_spec cut (runes s)) as [a [E1 [F1 N1]]]. fold l1 in E1, N1.
  destruct (dropset_spec cut (rev l1)) as [b [E2 [F2 N2]]]. fold l2 in E2, N2.
  exists (rev l2). split; [reflexivity|]. exists a, (rev b).
  assert (E3 : l1 = rev l2 ++ rev b) by (rewrite <- rev_app_distr, <- E2, rev_involutive; reflexivity).
  split; [rewrite E1 at 1; f_equal; exact E3|]. split; [exact F1|]. split; [apply Forall_rev; exact F2|]. split.
  - intros c r H. apply (N1 c (r ++ rev b)). rewrite E3, H. reflexivity.
  - intros c r H. apply (N2 c (rev r)). rewrite <- (rev_involutive l2), H, rev_app_distr. reflexivity.
Qed.
(** C26: trim removes characters of the cut set (default: blank and tab) from both
    ends, exactly up to the first other character *)
Theorem C26_trim : forall s cut args,
  (args = [VStr s; VStr cut] \/ args = [VStr s] /\ runes cut = [" "; schr "009"]) ->
  exists t rs, func_trim source args = OVal (VStr t) /\ t = concatS rs /\ trimmed cut (runes s) rs /\
    (validUTF8 s = true -> concatS (runes s) = s).
Proof.
  intros s cut args H.
  assert (E : func_trim source args = OVal (VStr (trim s cut))).
  { destruct H as [->|[-> Hc]]; [reflexivity|]. cbn [func_trim trim_val]. unfold trim. rewrite Hc. reflexivity. }
  destruct (trim_runes s cut) as [rs [E2 T]]. exists (trim s cut), rs.
  split; [exact E|]. split; [exact E2|]. split; [exact T|]. apply runes_valid.
Qed.
(** C26: on a list trim works element by element *)
Theorem C26_trim_list : forall l ss cut, texts l ss -> exists r,
  func_trim source [VList l; VStr cut] = OVal (VList r) /\
  Forall2 (fun s n => func_trim source [VStr s; VStr cut] = OVal (val n)) ss r.
Proof.
  intros l ss cut T. cbn [func_trim trim_val].
  assert (X : trim_list source cut l = Some (map (fun s => newNode (VStr (trim s cut)) source) ss)).
  { unfold texts in T. revert ss T. induction l as [|n l IH]; intros [|s ss] T; try discriminate; [reflexivity|].
    cbn in T. injection T as T1 T2. cbn [trim_list]. rewrite T1, (IH _ T2). reflexivity. }
  rewrite X. eexists. split; [reflexivity|]. clear. induction ss; constructor; [reflexivity|assumption].
Qed.

Example C26_case :
  func_split source [VStr ","; VStr "a,b,,c"] = OVal (VList (map (fun e => newNode (VStr e) source) ["a"; "b"; ""; "c"])) /\
  func_split source [VStr ","; VStr "a,b,,c"; VInt 2] = OVal (VList (map (fun e => newNode (VStr e) source) ["a"; "b,,c"])) /\
  func_split source [VInt 2; VStr "abcde"] = OVal (VList (map (fun e => newNode (VStr e) source) ["ab"; "cd"; "e"])) /\
  func_trim source [VStr "  a b "] = OVal (VStr "a b") /\ func_trim source [VStr "xxaxbx"; VStr "x"] = OVal (VStr "axb") /\
  func_join [VStr ", "; VStr "a"; VNil; VList [newNode (VInt 1) ""; newNode (VBool true) ""]] = OVal (VStr "a, 1, true") /\
  runes defaultCut = [" "; schr "009"] /\ validUTF8 "  a b " = true.
Proof. repeat split. Qed.
End C.

Print Assumptions C26_join_split.
Print Assumptions C26_split_pieces.
Print Assumptions C26_split_limit.
Print Assumptions C26_split_join.
Print Assumptions C26_split_length.
Print Assumptions C26_split_length_refuted.
Print Assumptions C26_split_chars.
Print Assumptions C26_join.
Print Assumptions C26_panic_refuted.
Print Assumptions C26_trim.
Print Assumptions C26_trim_list.
