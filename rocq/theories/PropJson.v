(** C60: the JSON form of values. *)
From Coq Require Import Lia Floats.SpecFloat.
From Verif Require Import Core CoreFacts Str StrFacts ListFns PropList PropCompare PropText2 Convert ConvertSpec PropConvert Json JsonSpec.
From Verif Require Parser Peg.
Import ListNotations.
Open Scope string_scope. Open Scope list_scope. Open Scope Z_scope.

(** * JSON texts have one reading *)
Lemma char_inj a b : bytev a = bytev b -> a = b.
Proof. intro E. rewrite <- (byteof_bytev a), <- (byteof_bytev b), E. reflexivity. Qed.
Lemma hexAt_fun c d d' : hexAt c d -> hexAt c d' -> d = d'.
Proof.
  assert (T : forall c d, hexAt c d -> (d < 16)%nat /\ Z.of_nat d = (if bytev c <? 58 then bytev c - 48 else if bytev c <? 91 then bytev c - 55 else bytev c - 87)).
  { intros x k [H|H]; do 16 (destruct k as [|k]; [cbn in H; injection H as <-; split; [lia|reflexivity]|]); destruct k; discriminate H. }
  intros H H'. apply T in H, H'. lia.
Qed.
Lemma hexAt_lt c d : hexAt c d -> (d < 16)%nat.
Proof. intros [H|H]; (assert (d < 16)%nat; [|assumption]); [change 16%nat with (length (chars "0123456789abcdef"))|change 16%nat with (length (chars "0123456789ABCDEF"))]; apply nth_error_Some; congruence. Qed.
Lemma codePoint_fun z l l' : codePoint z l -> codePoint z l' -> l = l'.
Proof.
  intros [[R (a & E & ->)]|[[R (a & b & x & y & Ez & Ry & Ea & Eb & ->)]|[R [_ (a & b & c & x & y & w & Ez & Ry & Rw & Ea & Eb & Ec & ->)]]]];
  intros [[R' (a' & E' & ->)]|[[R' (a' & b' & x' & y' & Ez' & Ry' & Ea' & Eb' & ->)]|[R' [_ (a' & b' & c' & x' & y' & w' & Ez' & Ry' & Rw' & Ea' & Eb' & Ec' & ->)]]]]; try lia.
  - f_equal. apply char_inj. lia.
  - assert (x = x') by lia. assert (y = y') by lia. repeat f_equal; apply char_inj; lia.
  - assert (x = x') by lia. assert (y = y') by lia. assert (w = w') by lia. repeat f_equal; apply char_inj; lia.
Qed.
Lemma escapes_fun e c c' : In (e, c) escapes -> In (e, c') escapes -> c = c'.
Proof. unfold escapes. cbn. intros H H'. repeat destruct H as [H|H]; try contradiction; injection H as <- <-; repeat destruct H' as [H'|H']; try contradiction; congruence. Qed.
Lemma escapes_u c : ~ In ("u"%char, c) escapes.
Proof. unfold escapes. cbn. intuition congruence. Qed.
Lemma textOf_unique t s : textOf t s -> forall t' s' r r', textOf t' s' -> t ++ "034"%char :: r = t' ++ "034"%char :: r' -> t = t' /\ s = s' /\ r = r'.
Proof.
  induction 1 as [|c t s R N1 N2 H IH|e c t s E H IH|a b c d i j k l z bs t s Ha Hb Hc Hd Ez Hz H IH]; intros t' s' r r' H'; destruct H' as [|c' t' s' R' N1' N2' H'|e' c' t' s' E' H'|a' b' c' d' i' j' k' l' z' bs' t' s' Ha' Hb' Hc' Hd' Ez' Hz' H']; cbn [app]; intro X; try congruence.
  - injection X as <-. auto.
  - injection X as <- X. destruct (IH _ _ _ _ H' X) as (-> & -> & ->). auto.
  - injection X as <- X. destruct (IH _ _ _ _ H' X) as (-> & -> & ->). rewrite (escapes_fun _ _ _ E E'). auto.
  - injection X as -> X. now apply escapes_u in E.
  - injection X as <- X. now apply escapes_u in E'.
  - injection X as <- <- <- <- X. destruct (IH _ _ _ _ H' X) as (-> & -> & ->).
    rewrite (hexAt_fun _ _ _ Ha' Ha), (hexAt_fun _ _ _ Hb' Hb), (hexAt_fun _ _ _ Hc' Hc), (hexAt_fun _ _ _ Hd' Hd), <- Ez in Ez'. subst z'. rewrite (codePoint_fun _ _ _ Hz Hz'). auto.
Qed.
Lemma quoted_unique q s q' s' r r' : quotedText q s -> quotedText q' s' -> q ++ r = q' ++ r' -> q = q' /\ s = s' /\ r = r'.
Proof.
  intros (t & T & ->) (t' & T' & ->) E. cbn [app] in E. injection E as E. rewrite <- !app_assoc in E. cbn [app] in E.
  destruct (textOf_unique _ _ T _ _ _ _ T' E) as (-> & -> & ->). auto.
Qed.
Definition numChar (c : ascii) : Prop := In c (chars "0123456789+-.eE").
Lemma digits_num l : Forall decDigit l -> Forall numChar l.
Proof. apply Forall_impl. intros c H. unfold decDigit, numChar in *. cbn in *. tauto. Qed.
Lemma number_chars t : number t -> Forall numChar t /\ exists c r, t = c :: r.
Proof.
  intros (m & i & f & e & Hm & [[Ni Di] _] & Hf & He & ->). split.
  - apply Forall_app. split; [|apply Forall_app; split; [|apply Forall_app; split]].
    + destruct Hm as [<-|[<-|[]]]; [apply Forall_nil|]. apply Forall_cons; [unfold numChar; cbn; tauto|apply Forall_nil].
    + now apply digits_num.
    + destruct Hf as [->|(d & -> & [_ D])]; constructor; [unfold numChar; cbn; tauto|now apply digits_num].
    + destruct He as [->|(x & s & d & Hx & Hs & [_ D] & ->)]; constructor; [unfold numChar; destruct Hx as [<-|[<-|[]]]; cbn; tauto|].
      apply Forall_app. split; [|now apply digits_num]. destruct Hs as [<-|[<-|[<-|[]]]]; [apply Forall_nil|..]; (apply Forall_cons; [unfold numChar; cbn; tauto|apply Forall_nil]).
  - destruct i; [congruence|]. destruct Hm as [<-|[<-|[]]]; cbn; eauto.
Qed.
Definition stop (r : list ascii) : Prop := r = [] \/ exists c r', r = c :: r' /\ In c [","; "]"; "}"]%char.
Lemma span_unique t : forall t' r r', Forall numChar t -> Forall numChar t' -> t ++ r = t' ++ r' -> stop r -> stop r' -> t = t' /\ r = r'.
Proof.
  assert (NS : forall c r, numChar c -> ~ stop (c :: r)).
  { intros c r N [S|(d & r' & S & I)]; [discriminate|]. injection S as -> _. unfold numChar in N. cbn in N, I. intuition congruence. }
  induction t as [|c t IH]; intros [|c' t'] r r' F F' E S S'.
  - auto.
  - cbn in E. subst r. inversion F'; subst. exfalso. eapply NS; eauto.
  - cbn in E. subst r'. inversion F; subst. exfalso. eapply NS; eauto.
  - injection E as <- E. inversion F; inversion F'; subst. destruct (IH t' r r') as [-> ->]; auto.
Qed.

Scheme json_i := Induction for json Sort Prop with items_i := Induction for items Sort Prop with members_i := Induction for members Sort Prop.
Combined Scheme json_all from json_i, items_i, members_i.

Definition kind (c : ascii) : nat :=
  if Ascii.eqb c "n" then 0 else if Ascii.eqb c "t" then 1 else if Ascii.eqb c "f" then 2 else if Ascii.eqb c "034" then 3 else if Ascii.eqb c "[" then 4 else if Ascii.eqb c "{" then 5 else if existsb (Ascii.eqb c) (chars "0123456789+-.eE") then 6 else 7.
Definition kindOf (j : jval) : nat :=
  match j with JNull => 0 | JBool true => 1 | JBool false => 2 | JNum _ => 6 | JStr _ => 3 | JArr _ => 4 | JObj _ => 5 end.
Lemma num_kind c : numChar c -> kind c = 6%nat.
Proof. unfold numChar. cbn. intro H. repeat (destruct H as [<-|H]; [reflexivity|]). destruct H. Qed.
Lemma json_head t j : json t j -> exists c r, t = c :: r /\ kind c = kindOf j.
Proof.
  destruct 1 as [| | |t N|q s (t & _ & ->)| |t l _| |t m _]; try (eexists _, _; split; reflexivity).
  destruct (number_chars _ N) as [F (c & r & ->)]. exists c, r. split; [reflexivity|]. inversion F; subst. now apply num_kind.
Qed.
Lemma stop_kind c r : stop (c :: r) -> kind c = 7%nat.
Proof. intros [S|(d & r' & S & I)]; [discriminate|]. injection S as -> _. cbn in I. repeat (destruct I as [<-|I]; [reflexivity|]). destruct I. Qed.
Lemma same_kind t j t' j' r r' : json t j -> json t' j' -> t ++ r = t' ++ r' -> kindOf j = kindOf j'.
Proof.
  intros H H' E. destruct (json_head _ _ H) as (c & u & -> & K), (json_head _ _ H') as (c' & u' & -> & K'). injection E as <- _. congruence.
Qed.
Lemma items_head t l : items t l -> exists c r, t = c :: r /\ (kind c < 7)%nat.
Proof.
  assert (K : forall j, (kindOf j < 7)%nat) by (intros [|[]| | | |]; cbn; lia).
  destruct 1 as [t j H|t j t' l H H']; destruct (json_head _ _ H) as (c & r & -> & E); eexists _, _; (split; [reflexivity|rewrite E; apply K]).
Qed.
Lemma members_head t m : members t m -> exists r, t = "034"%char :: r.
Proof. destruct 1 as [q k t j (x & _ & ->) H|q k t j t' m (x & _ & ->) H H']; cbn; eauto. Qed.

Lemma json_unique :
  (forall t j, json t j -> forall t' j' r r', json t' j' -> t ++ r = t' ++ r' -> stop r -> stop r' -> t = t' /\ j = j' /\ r = r') /\
  (forall t l, items t l -> forall t' l' r r', items t' l' -> t ++ "]"%char :: r = t' ++ "]"%char :: r' -> t = t' /\ l = l' /\ r = r') /\
  (forall t m, members t m -> forall t' m' r r', members t' m' -> t ++ "}"%char :: r = t' ++ "}"%char :: r' -> t = t' /\ m = m' /\ r = r').
Proof.
  assert (SB : forall r, stop ("]"%char :: r)) by (intro; right; eexists _, _; split; [reflexivity|cbn; tauto]).
  assert (SO : forall r, stop ("}"%char :: r)) by (intro; right; eexists _, _; split; [reflexivity|cbn; tauto]).
  assert (SC : forall r, stop (","%char :: r)) by (intro; right; eexists _, _; split; [reflexivity|cbn; tauto]).
  apply json_all with
    (P := fun t j _ => forall t' j' r r', json t' j' -> t ++ r = t' ++ r' -> stop r -> stop r' -> t = t' /\ j = j' /\ r = r')
    (P0 := fun t l _ => forall t' l' r r', items t' l' -> t ++ "]"%char :: r = t' ++ "]"%char :: r' -> t = t' /\ l = l' /\ r = r')
    (P1 := fun t m _ => forall t' m' r r', members t' m' -> t ++ "}"%char :: r = t' ++ "}"%char :: r' -> t = t' /\ m = m' /\ r = r').
  - intros t' j' r r' H' E _ _. pose proof (same_kind _ _ _ _ _ _ J_null H' E) as K. destruct H'; cbn in K; try discriminate K. injection E as <-. auto.
  - intros t' j' r r' H' E _ _. pose proof (same_kind _ _ _ _ _ _ J_true H' E) as K. destruct H'; cbn in K; try discriminate K. injection E as <-. auto.
  - intros t' j' r r' H' E _ _. pose proof (same_kind _ _ _ _ _ _ J_false H' E) as K. destruct H'; cbn in K; try discriminate K. injection E as <-. auto.
  - intros t N t' j' r r' H' E S S'. pose proof (same_kind _ _ _ _ _ _ (J_num _ N) H' E) as K. destruct H' as [| | |t' N'| | | | |]; cbn in K; try discriminate K.
    destruct (span_unique t t' r r') as [-> ->]; auto; now apply number_chars.
  - intros q s Q t' j' r r' H' E _ _. pose proof (same_kind _ _ _ _ _ _ (J_str _ _ Q) H' E) as K. destruct H' as [| | | |q' s' Q'| | | |]; cbn in K; try discriminate K.
    destruct (quoted_unique _ _ _ _ _ _ Q Q' E) as (-> & -> & ->). auto.
  - intros t' j' r r' H' E _ _. pose proof (same_kind _ _ _ _ _ _ J_arr0 H' E) as K. destruct H' as [| | | | | |t' l' I'| |]; cbn in K; try discriminate K.
    + injection E as <-. auto.
    + destruct (items_head _ _ I') as (c & u & -> & Kc). injection E as <- _. cbn in Kc. lia.
  - intros t l I IH t' j' r r' H' E _ _. pose proof (same_kind _ _ _ _ _ _ (J_arr _ _ I) H' E) as K. destruct H' as [| | | | | |t' l' I'| |]; cbn in K; try discriminate K.
    + destruct (items_head _ _ I) as (c & u & -> & Kc). injection E as -> _. cbn in Kc. lia.
    + cbn [app] in E. injection E as E. rewrite <- !app_assoc in E. destruct (IH _ _ _ _ I' E) as (-> & -> & ->). auto.
  - intros t' j' r r' H' E _ _. pose proof (same_kind _ _ _ _ _ _ J_obj0 H' E) as K. destruct H' as [| | | | | | | |t' m' M']; cbn in K; try discriminate K.
    + injection E as <-. auto.
    + destruct (members_head _ _ M') as (u & ->). discriminate E.
  - intros t m M IH t' j' r r' H' E _ _. pose proof (same_kind _ _ _ _ _ _ (J_obj _ _ M) H' E) as K. destruct H' as [| | | | | | | |t' m' M']; cbn in K; try discriminate K.
    + destruct (members_head _ _ M) as (u & ->). discriminate E.
    + cbn [app] in E. injection E as E. rewrite <- !app_assoc in E. destruct (IH _ _ _ _ M' E) as (-> & -> & ->). auto.
  - intros t j H IH t' l' r r' I' E. destruct I' as [t' j' H'|t' j' u l' H' I'].
    + destruct (IH _ _ _ _ H' E) as (-> & -> & X); auto. injection X as ->. auto.
    + rewrite <- app_assoc in E. destruct (IH _ _ _ _ H' E) as (_ & _ & X); cbn; auto. discriminate X.
  - intros t j u l H IH I IHI t' l' r r' I' E. destruct I' as [t' j' H'|t' j' u' l' H' I'].
    + rewrite <- app_assoc in E. destruct (IH _ _ _ _ H' E) as (_ & _ & X); cbn; auto. discriminate X.
    + rewrite <- !app_assoc in E. destruct (IH _ _ _ _ H' E) as (-> & -> & X); cbn; auto. injection X as X. destruct (IHI _ _ _ _ I' X) as (-> & -> & ->). auto.
  - intros q k t j Q H IH t' m' r r' M' E. destruct M' as [q' k' t' j' Q' H'|q' k' t' j' u' m' Q' H' M'].
    + rewrite <- !app_assoc in E. destruct (quoted_unique _ _ _ _ _ _ Q Q' E) as (-> & -> & X). cbn in X. injection X as X.
      destruct (IH _ _ _ _ H' X) as (-> & -> & Y); auto. injection Y as ->. auto.
    + rewrite <- !app_assoc in E. destruct (quoted_unique _ _ _ _ _ _ Q Q' E) as (-> & -> & X). cbn in X. injection X as X. rewrite <- app_assoc in X.
      destruct (IH _ _ _ _ H' X) as (_ & _ & Y); cbn; auto. discriminate Y.
  - intros q k t j u m Q H IH M IHM t' m' r r' M' E. destruct M' as [q' k' t' j' Q' H'|q' k' t' j' u' m' Q' H' M'].
    + rewrite <- !app_assoc in E. destruct (quoted_unique _ _ _ _ _ _ Q Q' E) as (-> & -> & X). cbn in X. injection X as X. rewrite <- app_assoc in X.
      destruct (IH _ _ _ _ H' X) as (_ & _ & Y); cbn; auto. discriminate Y.
    + rewrite <- !app_assoc in E. destruct (quoted_unique _ _ _ _ _ _ Q Q' E) as (-> & -> & X). cbn in X. injection X as X. rewrite <- !app_assoc in X.
      destruct (IH _ _ _ _ H' X) as (-> & -> & Y); cbn; auto. cbn in Y. injection Y as Y. destruct (IHM _ _ _ _ M' Y) as (-> & -> & ->). auto.
Qed.
Theorem C60_one_reading : forall t j j', json t j -> json t j' -> j = j'.
Proof. intros t j j' H H'. destruct (proj1 json_unique _ _ H _ _ [] [] H' eq_refl); [now left|now left|]. tauto. Qed.

(** * Writing texts *)
Lemma hex_digitChar d : 0 <= d < 16 -> hexAt (digitChar d) (Z.to_nat d).
Proof.
  intro R. left. pose proof (digitChar_at d ltac:(lia)) as D. unfold digitAt in D.
  rewrite <- D. replace (Z.to_nat d) with (Z.to_nat d) by reflexivity. assert (L : (Z.to_nat d < 16)%nat) by lia. revert L. generalize (Z.to_nat d). intros n L.
  do 16 (destruct n as [|n]; [reflexivity|]). lia.
Qed.
Lemma quote1_text c t s : bytev c < 128 -> textOf t s -> textOf (quote1 c ++ t) (c :: s).
Proof.
  intros R T. unfold quote1.
  destruct (Ascii.eqb_spec c "034") as [->|N1]; [cbn [orb app]; apply (T_escape "034" "034"); [cbn; tauto|exact T]|].
  destruct (Ascii.eqb_spec c "\") as [->|N2]; [cbn [orb app]; apply (T_escape "\" "\"); [cbn; tauto|exact T]|].
  cbn [orb].
  destruct (Ascii.eqb_spec c "008") as [->|N3]; [apply (T_escape "b" "008"); [cbn; tauto|exact T]|].
  destruct (Ascii.eqb_spec c "012") as [->|N4]; [apply (T_escape "f" "012"); [cbn; tauto|exact T]|].
  destruct (Ascii.eqb_spec c "010") as [->|N5]; [apply (T_escape "n" "010"); [cbn; tauto|exact T]|].
  destruct (Ascii.eqb_spec c "013") as [->|N6]; [apply (T_escape "r" "013"); [cbn; tauto|exact T]|].
  destruct (Ascii.eqb_spec c "009") as [->|N7]; [apply (T_escape "t" "009"); [cbn; tauto|exact T]|].
  destruct ((bytev c <? 32) || Ascii.eqb c "<" || Ascii.eqb c ">" || Ascii.eqb c "&") eqn:E.
  - pose proof (bytev_range c) as B. unfold u00. cbn [chars list_ascii_of_string app].
    change (c :: s) with ([c] ++ s).
    apply (T_code _ _ _ _ 0 0 (Z.to_nat (bytev c / 16)) (Z.to_nat (bytev c mod 16)) (bytev c)).
    + left. reflexivity.
    + left. reflexivity.
    + apply hex_digitChar. split; [apply Z.div_pos; lia|apply Z.div_lt_upper_bound; lia].
    + apply hex_digitChar. apply Z.mod_pos_bound. lia.
    + rewrite !Z2Nat.id; [|apply Z.mod_pos_bound; lia|apply Z.div_pos; lia]. pose proof (Z.div_mod (bytev c) 16 ltac:(lia)). cbn [Z.of_nat]. lia.
    + left. split; [lia|]. eauto.
    + exact T.
  - apply orb_false_iff in E. destruct E as [E _]. apply orb_false_iff in E. destruct E as [E _]. apply orb_false_iff in E. destruct E as [E _].
    apply Z.ltb_ge in E. cbn [app]. now apply T_plain.
Qed.
Lemma plain_hi c t s : 128 <= bytev c -> textOf t s -> textOf (c :: t) (c :: s).
Proof. intros B T. apply T_plain; [lia| | |exact T]; intros ->; vm_compute in B; now apply B. Qed.
Ltac decideZ := repeat match goal with
  | |- context [(?x <? ?y)%Z] => destruct (Z.ltb_spec x y); try lia
  | |- context [(?x <=? ?y)%Z] => destruct (Z.leb_spec x y); try lia
  | |- context [(?x =? ?y)%Z] => destruct (Z.eqb_spec x y); try lia
  end; cbn [andb orb]; try reflexivity; try lia.
Lemma width2 a b l : between 194 223 a -> between 128 191 b -> rune_width (a :: b :: l) = (2%nat, true).
Proof. unfold between. intros Ra Rb. unfold rune_width, cont. decideZ. Qed.
Lemma width3 a b c l : (between 224 224 a /\ between 160 191 b) \/ (between 225 236 a /\ between 128 191 b) \/ (between 237 237 a /\ between 128 159 b) \/ (between 238 239 a /\ between 128 191 b) ->
  between 128 191 c -> rune_width (a :: b :: c :: l) = (3%nat, true).
Proof. unfold between. intros [[Ra Rb]|[[Ra Rb]|[[Ra Rb]|[Ra Rb]]]] Rc; unfold rune_width, cont; decideZ. Qed.
Lemma width4 a b c d l : (between 240 240 a /\ between 144 191 b) \/ (between 241 243 a /\ between 128 191 b) \/ (between 244 244 a /\ between 128 143 b) ->
  between 128 191 c -> between 128 191 d -> rune_width (a :: b :: c :: d :: l) = (4%nat, true).
Proof. unfold between. intros [[Ra Rb]|[[Ra Rb]|[Ra Rb]]] Rc Rd; unfold rune_width, cont; decideZ. Qed.
Lemma quoteL_text s : utf8Text s -> textOf (quoteL s 0) s.
Proof.
  assert (HI : forall c, 128 <= bytev c -> (bytev c <? 128) = false) by (intros c H; apply Z.ltb_ge; exact H).
  induction 1 as [|a l Ra H IH|a b l Ra Rb H IH|a b c l R Rc H IH|a b c d l R Rc Rd H IH]; [constructor|..].
  - unfold between in Ra. cbn [quoteL]. assert (E : (bytev a <? 128) = true) by (apply Z.ltb_lt; lia). unfold rune_width. rewrite E. cbn [Nat.sub]. apply quote1_text; [lia|exact IH].
  - cbn [quoteL]. rewrite (width2 _ _ _ Ra Rb). unfold between in Ra, Rb. rewrite HI by lia. cbn [Nat.sub quoteL firstn].
    replace (quoteRune [a; b]) with [a; b] by (unfold quoteRune; cbn [prefixL]; destruct (Ascii.eqb _ _); cbn [andb]; try reflexivity; destruct (Ascii.eqb _ _); reflexivity).
    cbn [app]. apply plain_hi; [lia|]. apply plain_hi; [lia|exact IH].
  - cbn [quoteL]. rewrite (width3 _ _ _ _ R Rc). assert (Ba : 224 <= bytev a) by (unfold between in *; lia). assert (Bb : 128 <= bytev b) by (unfold between in *; lia). unfold between in Rc. rewrite HI by lia. cbn [Nat.sub quoteL firstn].
    unfold quoteRune. destruct (prefixL ["226"; "128"; "168"]%char [a; b; c]) eqn:P1; [|destruct (prefixL ["226"; "128"; "169"]%char [a; b; c]) eqn:P2].
    + cbn [prefixL] in P1. rewrite !andb_true_iff in P1. destruct P1 as (E1 & E2 & E3 & _). apply Ascii.eqb_eq in E1, E2, E3. subst.
      change (?x :: ?y :: ?z :: l) with ([x; y; z] ++ l). eapply (T_code "2" "0" "2" "8" 2 0 2 8); [left; reflexivity|left; reflexivity|left; reflexivity|left; reflexivity|reflexivity| |exact IH].
      right. right. split; [cbn; lia|]. split; [cbn; lia|]. eexists _, _, _, 2, 0, 40. repeat split; try reflexivity; lia.
    + cbn [prefixL] in P2. rewrite !andb_true_iff in P2. destruct P2 as (E1 & E2 & E3 & _). apply Ascii.eqb_eq in E1, E2, E3. subst.
      change (?x :: ?y :: ?z :: l) with ([x; y; z] ++ l). eapply (T_code "2" "0" "2" "9" 2 0 2 9); [left; reflexivity|left; reflexivity|left; reflexivity|left; reflexivity|reflexivity| |exact IH].
      right. right. split; [cbn; lia|]. split; [cbn; lia|]. eexists _, _, _, 2, 0, 41. repeat split; try reflexivity; lia.
    + cbn [app]. apply plain_hi; [lia|]. apply plain_hi; [lia|]. apply plain_hi; [lia|exact IH].
  - cbn [quoteL]. rewrite (width4 _ _ _ _ _ R Rc Rd). assert (Ba : 240 <= bytev a) by (unfold between in *; lia). assert (Bb : 128 <= bytev b) by (unfold between in *; lia). unfold between in Rc, Rd. rewrite HI by lia. cbn [Nat.sub quoteL firstn].
    assert (Na : forall x, Ascii.eqb "226" a && x = false). { intro x. destruct (Ascii.eqb_spec "226" a) as [<-|]; [|reflexivity]. vm_compute in Ba. congruence. }
    unfold quoteRune. cbn [prefixL]. rewrite !Na. cbn [app]. apply plain_hi; [lia|]. apply plain_hi; [lia|]. apply plain_hi; [lia|]. apply plain_hi; [lia|exact IH].
Qed.
Lemma jsonText_quoted s : utf8Text s -> quotedText (jsonText s) s.
Proof. intro U. exists (quoteL s 0). split; [now apply quoteL_text|reflexivity]. Qed.

(** * Values *)
Lemma digit_dec d c : digitAt d c -> (d < 10)%nat -> decDigit c.
Proof. intros D L. unfold digitAt in D. unfold decDigit. do 10 (destruct d as [|d]; [cbn in D; injection D as <-; cbn; tauto|]). lia. Qed.
Lemma inBase_digits s z : inBase 10 s z -> someDigits (chars s).
Proof.
  induction 1 as [d c D L|s z d c H IH D L].
  - split; [discriminate|]. constructor; [|constructor]. eapply digit_dec; [exact D|lia].
  - destruct IH as [N F]. rewrite chars_app. split; [now destruct (chars s)|]. apply Forall_app. split; [exact F|]. constructor; [|constructor]. eapply digit_dec; [exact D|lia].
Qed.
Lemma numeral_number z s : numeral 10 z s -> number (chars s).
Proof.
  assert (P : forall r y, inBase 10 r y -> short r -> intPart (chars r)).
  { intros r y I S. split; [now apply inBase_digits in I|]. intros q E. assert (X : r = String "0" (ofchars q)).
    { rewrite <- (ofchars_chars r), E. reflexivity. } apply S in X. rewrite <- (chars_ofchars q), X. reflexivity. }
  intros [(L & I & S)|(L & r & -> & I & S)].
  - exists [], (chars s), [], []. split; [cbn; tauto|]. split; [eapply P; eauto|]. split; [now left|]. split; [now left|]. cbn. now rewrite !app_nil_r.
  - exists ["-"%char], (chars r), [], []. split; [cbn; tauto|]. split; [eapply P; eauto|]. split; [now left|]. split; [now left|]. cbn. now rewrite !app_nil_r.
Qed.
Lemma numeral_fun s z z' : numeral 10 z s -> numeral 10 z' s -> z = z'.
Proof.
  assert (M : forall r y, ~ inBase 10 (String "-" r) y).
  { intros r y I. apply inBase_digits in I. destruct I as [_ F]. cbn in F. inversion F as [|? ? D _]; subst. unfold decDigit in D. cbn in D. intuition discriminate. }
  assert (U : forall r y y', inBase 10 r y -> inBase 10 r y' -> y = y').
  { intros r y y' I. revert y'. induction I as [d c D L|r y d c I IH D L]; intros y' I'.
    - remember (String c "") as q eqn:Eq. destruct I' as [d' c' D' L'|r' y' d' c' I' D' L'].
      + injection Eq as ->. now rewrite (digit_inj _ _ _ D D').
      + destruct (inBase_head _ _ _ I') as (x & w & ->). cbn in Eq. injection Eq as _ Eq. destruct w; discriminate Eq.
    - remember (r +++ String c "") as q eqn:Eq. destruct I' as [d' c' D' L'|r' y' d' c' I' D' L'].
      + destruct (inBase_head _ _ _ I) as (x & w & ->). cbn in Eq. injection Eq as _ Eq. destruct w; discriminate Eq.
      + assert (X : chars r' ++ [c'] = chars r ++ [c]) by (apply (f_equal chars) in Eq; now rewrite !chars_app in Eq).
        apply app_inj_tail in X. destruct X as [X ->]. assert (r' = r) by (rewrite <- (ofchars_chars r'), X; apply ofchars_chars). subst r'.
        rewrite (digit_inj _ _ _ D' D), (IH _ I'). reflexivity. }
  intros [(L & I & S)|(L & r & -> & I & S)] [(L' & I' & S')|(L' & r' & E' & I' & S')].
  - eapply U; eauto.
  - subst s. now apply M in I.
  - now apply M in I'.
  - injection E' as <-. pose proof (U _ _ _ I I'). lia.
Qed.

Lemma commas_items l : l <> [] -> forall js, Forall2 json l js -> items (commas l) js.
Proof.
  induction l as [|x l IH]; intros N js F; [congruence|]. inversion F as [|? j ? js' H F']; subst. destruct l as [|y l].
  - inversion F'; subst. now apply I_one.
  - cbn [commas]. apply I_more; [exact H|]. apply IH; [discriminate|exact F'].
Qed.

Section Thms.
Variable floatText : spec_float -> list ascii.
Variable lambdaYaml : value -> string.
Variable markerYaml : expr -> option string.
(** the texts of finite floats are JSON numbers, different floats have different texts *)
Hypothesis floats : forall f, finite f = true -> number (floatText f).
Hypothesis floats_inj : forall f f', finite f = true -> finite f' = true -> floatText f = floatText f' -> f = f'.
Definition floatOf (t : list ascii) (f : spec_float) : Prop := finite f = true /\ t = floatText f.
Notation normalize := (normalize floatText lambdaYaml markerYaml).
Notation func_as_json := (func_as_json floatText lambdaYaml markerYaml).
Notation utf8 := (fun s => utf8Text (chars s)).

Definition normL := fix go (l : list node) : option (list jval) :=
  match l with [] => Some [] | mkNode x _ _ _ _ :: r => match normalize x, go r with Some j, Some js => Some (j :: js) | _, _ => None end end.
Definition normM := fix go (m : list (string * node)) : option (list (list ascii * jval)) :=
  match m with [] => Some [] | (k, mkNode x _ _ _ _) :: r => match normalize x, go r with Some j, Some js => Some ((chars k, j) :: js) | _, _ => None end end.
Lemma norm_list l : normalize (VList l) = option_map JArr (normL l).
Proof. reflexivity. Qed.
Lemma norm_map m : normalize (VMap m) = option_map JObj (normM m).
Proof. reflexivity. Qed.

Definition good (n : node) : Prop := data utf8 (val n) -> exists j, normalize (val n) = Some j /\ json (encode j) j /\ denotes floatOf (val n) j.
Lemma all_good n : good n.
Proof.
  induction n as [v a s t r IH] using node_ind'. unfold good. cbn [val]. intro D. destruct D as [|b|z|sg m e|sg|x U|l F|m F]; cbn [node_sub] in IH.
  - exists JNull. repeat split; constructor.
  - exists (JBool b). repeat split; [destruct b; constructor|constructor].
  - exists (JNum (chars (formatInt z 10))). split; [reflexivity|]. pose proof (formatInt_numeral z 10 ltac:(lia)) as N. split; [constructor; now apply numeral_number in N|].
    constructor. now rewrite ofchars_chars.
  - eexists. split; [reflexivity|]. split; [constructor; now apply floats|]. constructor. split; reflexivity.
  - eexists. split; [reflexivity|]. split; [constructor; now apply floats|]. constructor. split; reflexivity.
  - exists (JStr (chars x)). split; [reflexivity|]. split; [constructor; now apply jsonText_quoted|constructor].
  - rewrite norm_list. assert (X : exists js, normL l = Some js /\ Forall2 json (map encode js) js /\ Forall2 (fun n j => denotes floatOf (val n) j) l js).
    { induction IH as [|n l Hn _ IHl]; [exists []; repeat split; constructor|]. inversion F as [|? ? D Fl]; subst. destruct (Hn D) as (j & E & J & De), (IHl Fl) as (js & Es & Js & Ds).
      exists (j :: js). destruct n as [x ? ? ? ?]. cbn [normL val] in *. rewrite E, Es. split; [reflexivity|]. split; constructor; assumption. }
    destruct X as (js & E & J & De). rewrite E. exists (JArr js). split; [reflexivity|]. split; [|now constructor].
    destruct js as [|j js]; [apply J_arr0|]. cbn [encode]. apply J_arr. apply commas_items; [discriminate|exact J].
  - rewrite norm_map.
    assert (X : exists js, normM m = Some js /\ Forall (fun q => utf8Text (fst q) /\ json (encode (snd q)) (snd q)) js /\ Forall2 (fun p q => fst q = chars (fst p) /\ denotes floatOf (val (snd p)) (snd q)) m js).
    { induction IH as [|[k n] m Hn _ IHm]; [exists []; repeat split; constructor|]. inversion F as [|? ? [U D] Fm]; subst. cbn [fst snd] in *. destruct (Hn D) as (j & E & J & De), (IHm Fm) as (js & Es & Js & Ds).
      exists ((chars k, j) :: js). destruct n as [x ? ? ? ?]. cbn [normM val] in *. rewrite E, Es. split; [reflexivity|]. split; constructor; cbn [fst snd val]; auto. }
    destruct X as (js & E & J & De). rewrite E. exists (JObj js). split; [reflexivity|]. split; [|now constructor].
    destruct js as [|q js]; [apply J_obj0|]. cbn [encode]. apply J_obj. clear - J. revert q J. induction js as [|q' js IH]; intros q J; inversion J as [|? ? [U Jq] J']; subst; destruct q as [k j]; cbn [fst snd] in *.
    + cbn [map commas fst snd]. apply M_one; [now apply jsonText_quoted|exact Jq].
    + cbn [map commas fst snd]. rewrite <- app_assoc. cbn [app]. apply M_more; [now apply jsonText_quoted|exact Jq|]. apply IH. exact J'.
Qed.

(** asjson gives a JSON text that denotes the value *)
Theorem C60_asjson : forall v, data utf8 v ->
  exists t j, func_as_json [v] = OVal (VStr t) /\ json (chars t) j /\ denotes floatOf v j.
Proof.
  intros v D. destruct (all_good (mkNode v emptyAnn "" None None) D) as (j & E & J & De). cbn [val] in *.
  exists (ofchars (encode j)), j. split; [|split; [now rewrite chars_ofchars|exact De]]. cbn. unfold valueToJSON. now rewrite E.
Qed.
(** the same for the document written by merge --json: the text is that of the root value *)
Theorem C60_document : forall n, data utf8 (val n) ->
  exists t j, toJSON floatText lambdaYaml markerYaml (Some n) = Some t /\ json (chars t) j /\ denotes floatOf (val n) j.
Proof.
  intros n D. destruct (all_good n D) as (j & E & J & De). exists (ofchars (encode j)), j. split; [|split; [now rewrite chars_ofchars|exact De]].
  cbn. unfold valueToJSON. now rewrite E.
Qed.

Lemma denotes_same n : forall v' j, denotes floatOf (val n) j -> denotes floatOf v' j -> sameData floatOf (val n) v'.
Proof.
  induction n as [v a s t r IH] using node_ind'. cbn [val]. intros v' j D. destruct D as [|b|z x N|f x [Ff ->]|x|l js F|m js F]; intro D'; cbn [node_sub] in IH.
  - inversion D'; subst. constructor.
  - inversion D'; subst. constructor.
  - inversion D' as [| |z' y N'|f' y Fo| | |]; subst; [rewrite (numeral_fun _ _ _ N' N); constructor|]. econstructor; eauto.
  - inversion D' as [| |z' y N'|f' y [Ff' Fo]| | |]; subst; [econstructor; [exact N'|split; [exact Ff|reflexivity]]|]. rewrite (floats_inj _ _ Ff Ff' Fo). constructor.
  - remember (JStr (chars x)) as w eqn:Ew. destruct D' as [| | | |y| |]; try discriminate Ew. injection Ew as E. assert (y = x) by (rewrite <- (ofchars_chars y), E; apply ofchars_chars). subst. constructor.
  - inversion D' as [| | | | |l' js' F'|]; subst. constructor. clear D'. revert l' F'. induction F as [|n j l js D F IHF]; intros l' F'; inversion F'; subst; constructor.
    + inversion IH; subst. eauto.
    + inversion IH; subst. auto.
  - inversion D' as [| | | | | |m' js' F']; subst. constructor. clear D'. revert m' F'. induction F as [|[k n] [q j] m js [E D] F IHF]; intros m' F'; inversion F' as [|[k' n'] ? ? ? [E' D'] F'']; subst; constructor; cbn [fst snd] in *.
    + split; [|inversion IH; subst; eauto]. subst q. rewrite <- (ofchars_chars k), E'. apply ofchars_chars.
    + inversion IH; subst. auto.
Qed.
(** the text determines the data: values with the same JSON text are the same, up to integers and
    floats of the same text *)
Theorem C60_faithful : forall v v', data utf8 v -> data utf8 v' -> func_as_json [v] = func_as_json [v'] -> sameData floatOf v v'.
Proof.
  intros v v' D D' E. destruct (C60_asjson v D) as (t & j & T & J & De), (C60_asjson v' D') as (t' & j' & T' & J' & De').
  assert (X : t = t') by congruence. subst t'. rewrite (C60_one_reading _ _ _ J J') in De. exact (denotes_same (mkNode v emptyAnn "" None None) _ _ De De').
Qed.
(** an error is reported exactly if the value contains a float that is no number or infinite *)
Lemma norm_error n : plainValue (val n) -> (normalize (val n) = None <-> exists f, inside (VFloat f) (val n) /\ finite f = false).
Proof.
  induction n as [v a s t r IH] using node_ind'. cbn [val]. intro P. destruct P as [|b|z|f|x|l F|m F]; cbn [node_sub] in IH.
  1,2,3,5: split; [discriminate|]; intros (f & I & _); inversion I.
  - cbn. destruct (finite f) eqn:E; split.
    + discriminate.
    + intros (g & I & G). inversion I; subst. congruence.
    + intros _. exists f. split; [constructor|exact E].
    + reflexivity.
  - rewrite norm_list. assert (X : normL l = None <-> exists f, inside (VFloat f) (VList l) /\ finite f = false).
    { induction IH as [|n l Hn _ IHl].
      - split; [discriminate|]. intros (f & I & _). inversion I; subst. contradiction.
      - inversion F as [|? ? P Fl]; subst. specialize (Hn P). specialize (IHl Fl). destruct n as [x ? ? ? ?]. cbn [normL val] in *.
        assert (Y : (exists f, inside (VFloat f) (VList (mkNode x an src tmpl res :: l)) /\ finite f = false) <-> (exists f, inside (VFloat f) x /\ finite f = false) \/ (exists f, inside (VFloat f) (VList l) /\ finite f = false)).
        { split.
          - intros (f & I & G). inversion I as [|? n In1 I1|]; subst. destruct In1 as [<-|In1]; [left; exists f; auto|right; exists f; split; [eapply In_list; eauto|exact G]].
          - intros [(f & I & G)|(f & I & G)]; exists f; (split; [|exact G]); [eapply In_list; [left; reflexivity|exact I]|]. inversion I as [|? n In1 I1|]; subst. eapply In_list; [right; exact In1|exact I1]. }
        rewrite Y, <- Hn, <- IHl. destruct (normalize x), (normL l); split; intro; try tauto; try discriminate; intuition discriminate. }
    rewrite <- X. destruct (normL l); cbn; split; congruence.
  - rewrite norm_map. assert (X : normM m = None <-> exists f, inside (VFloat f) (VMap m) /\ finite f = false).
    { induction IH as [|[k n] m Hn _ IHm].
      - split; [discriminate|]. intros (f & I & _). inversion I; subst. contradiction.
      - inversion F as [|? ? P Fl]; subst. cbn [snd] in *. specialize (Hn P). specialize (IHm Fl). destruct n as [x ? ? ? ?]. cbn [normM val] in *.
        assert (Y : (exists f, inside (VFloat f) (VMap ((k, mkNode x an src tmpl res) :: m)) /\ finite f = false) <-> (exists f, inside (VFloat f) x /\ finite f = false) \/ (exists f, inside (VFloat f) (VMap m) /\ finite f = false)).
        { split.
          - intros (f & I & G). inversion I as [| |? k1 n In1 I1]; subst. destruct In1 as [In1|In1]; [injection In1 as <- <-; left; exists f; auto|right; exists f; split; [eapply In_map; eauto|exact G]].
          - intros [(f & I & G)|(f & I & G)]; exists f; (split; [|exact G]); [eapply In_map; [left; reflexivity|exact I]|]. inversion I as [| |? k1 n In1 I1]; subst. eapply In_map; [right; exact In1|exact I1]. }
        rewrite Y, <- Hn, <- IHm. destruct (normalize x), (normM m); split; intro; try tauto; try discriminate; intuition discriminate. }
    rewrite <- X. destruct (normM m); cbn; split; congruence.
Qed.
Theorem C60_error : forall v, plainValue v -> (func_as_json [v] = OErr <-> exists f, inside (VFloat f) v /\ finite f = false).
Proof.
  intros v P. rewrite <- (norm_error (mkNode v emptyAnn "" None None) P). cbn [val]. cbn. unfold valueToJSON. destruct (normalize v); cbn; split; congruence.
Qed.
(** texts that are not UTF-8 are changed: the JSON text denotes another text *)
Theorem C60_bytes_refuted : exists s t s', func_as_json [VStr s] = OVal (VStr t) /\ json (chars t) (JStr s') /\ s' <> chars s.
Proof.
  exists (ofchars ["255"%char]). eexists. exists ["239"; "191"; "189"]%char. split; [reflexivity|]. split; [|discriminate].
  apply J_str. exists (chars "\ufffd"). split; [|reflexivity]. change ["239"; "191"; "189"]%char with (["239"; "191"; "189"]%char ++ []).
  eapply (T_code "f" "f" "f" "d" 15 15 15 13); [left; reflexivity|left; reflexivity|left; reflexivity|left; reflexivity|reflexivity| |constructor].
  right. right. split; [cbn; lia|]. split; [cbn; lia|]. eexists _, _, _, 15, 63, 61. repeat split; try reflexivity; lia.
Qed.
(** the result of integer(true) (Go's int) is rejected *)
Theorem C60_goint_refuted : forall z, func_as_json [VGoInt z] = OErr.
Proof. reflexivity. Qed.
End Thms.

(** * Reading back: the string literals of dynaml are read by the JSON decoder (parser.go:133-140),
    interpolated texts are written as JSON strings (interpolation.go:115) *)
Lemma unq1 c X : bytev c < 128 -> Parser.unquoteR (runes_aux (quote1 c ++ X) 0) = Parser.pre (String c "") (Parser.unquoteR (runes_aux X 0)).
Proof. destruct c as [[] [] [] [] [] [] [] []]; intro R; first [reflexivity|vm_compute in R; discriminate R]. Qed.
Lemma unq_plain r X : Parser.isQ r = false -> Parser.isBS r = false -> Parser.isCtl r = false -> Parser.unquoteR (r :: X) = Parser.pre r (Parser.unquoteR X).
Proof. intros Q B C. cbn [Parser.unquoteR]. now rewrite Q, B, C. Qed.
Lemma long_plain a b l : Parser.isQ (String a (String b l)) = false /\ Parser.isBS (String a (String b l)) = false /\ Parser.isCtl (String a (String b l)) = false.
Proof. unfold Parser.isQ, Parser.isBS, Peg.isChar. split; [|split; [|reflexivity]]; apply String.eqb_neq; discriminate. Qed.
Theorem C60_literal : forall s, utf8Text (chars s) -> Parser.parseString (jsonString s) = Some s.
Proof.
  assert (HI : forall c, 128 <= bytev c -> (bytev c <? 128) = false) by (intros c H; apply Z.ltb_ge; exact H).
  assert (X : forall s, utf8Text s -> Parser.unquoteR (runes_aux (quoteL s 0 ++ ["034"%char]) 0) = Some (ofchars s)).
  { induction 1 as [|a l Ra H IH|a b l Ra Rb H IH|a b c l R Rc H IH|a b c d l R Rc Rd H IH]; [reflexivity|..].
    - unfold between in Ra. cbn [quoteL]. assert (E : (bytev a <? 128) = true) by (apply Z.ltb_lt; lia). unfold rune_width. rewrite E. cbn [Nat.sub]. rewrite <- app_assoc, unq1 by lia. rewrite IH. reflexivity.
    - cbn [quoteL]. rewrite (width2 _ _ _ Ra Rb). pose proof Ra as Ba. unfold between in Ba. rewrite HI by lia. cbn [Nat.sub quoteL firstn].
      replace (quoteRune [a; b]) with [a; b] by (unfold quoteRune; cbn [prefixL]; destruct (Ascii.eqb _ _); cbn [andb]; try reflexivity; destruct (Ascii.eqb _ _); reflexivity).
      cbn [app runes_aux]. rewrite (width2 _ _ _ Ra Rb). cbn [Nat.sub firstn]. destruct (long_plain a b "") as (Q & B & C). rewrite unq_plain by assumption. rewrite IH. reflexivity.
    - cbn [quoteL]. rewrite (width3 _ _ _ _ R Rc). assert (Ba : 224 <= bytev a) by (unfold between in *; lia). rewrite HI by lia. cbn [Nat.sub quoteL firstn].
      unfold quoteRune. destruct (prefixL ["226"; "128"; "168"]%char [a; b; c]) eqn:P1; [|destruct (prefixL ["226"; "128"; "169"]%char [a; b; c]) eqn:P2].
      + cbn [prefixL] in P1. rewrite !andb_true_iff in P1. destruct P1 as (E1 & E2 & E3 & _). apply Ascii.eqb_eq in E1, E2, E3. subst.
        transitivity (Parser.pre (Parser.utf8 8232) (Parser.unquoteR (runes_aux (quoteL l 0 ++ ["034"%char]) 0))); [reflexivity|]. rewrite IH. reflexivity.
      + cbn [prefixL] in P2. rewrite !andb_true_iff in P2. destruct P2 as (E1 & E2 & E3 & _). apply Ascii.eqb_eq in E1, E2, E3. subst.
        transitivity (Parser.pre (Parser.utf8 8233) (Parser.unquoteR (runes_aux (quoteL l 0 ++ ["034"%char]) 0))); [reflexivity|]. rewrite IH. reflexivity.
      + cbn [app runes_aux]. rewrite (width3 _ _ _ _ R Rc). cbn [Nat.sub firstn]. destruct (long_plain a b (String c "")) as (Q & B & C). rewrite unq_plain by assumption. rewrite IH. reflexivity.
    - cbn [quoteL]. rewrite (width4 _ _ _ _ _ R Rc Rd). assert (Ba : 240 <= bytev a) by (unfold between in *; lia). rewrite HI by lia. cbn [Nat.sub quoteL firstn].
      assert (Na : forall x, Ascii.eqb "226" a && x = false). { intro x. destruct (Ascii.eqb_spec "226" a) as [<-|]; [|reflexivity]. vm_compute in Ba. congruence. }
      unfold quoteRune. cbn [prefixL]. rewrite !Na. cbn [app runes_aux]. rewrite (width4 _ _ _ _ _ R Rc Rd). cbn [Nat.sub firstn]. destruct (long_plain a b (String c (String d ""))) as (Q & B & C). rewrite unq_plain by assumption. rewrite IH. reflexivity. }
  intros s U. unfold Parser.parseString, runes, jsonString, jsonText. rewrite chars_ofchars.
  transitivity (Parser.unquoteR (runes_aux (quoteL (chars s) 0 ++ ["034"%char]) 0)); [reflexivity|]. rewrite (X _ U). now rewrite ofchars_chars.
Qed.

(** ** examples *)
Definition noFloat (f : spec_float) : list ascii := chars "0".
Definition exV : value := VMap [("a", newNode (VList [newNode (VInt (-12)) ""; newNode VNil ""; newNode (VStr "x<""\") ""]) ""); ("b", newNode (VMap []) "")].
Example ex_json : Json.func_as_json noFloat (fun _ => "") (fun _ => None) [exV] = OVal (VStr "{""a"":[-12,null,""x\u003c\""\\""],""b"":{}}").
Proof. vm_compute. reflexivity. Qed.
Example ex_data : data (fun s => utf8Text (chars s)) exV.
Proof.
  assert (U : forall s, forallb (fun c => bytev c <? 128) (chars s) = true -> utf8Text (chars s)).
  { intro s. generalize (chars s). intro l. induction l as [|c l IH]; intro H; [constructor|]. cbn in H. apply andb_true_iff in H. destruct H as [H1 H2]. apply U_1; [|auto]. apply Z.ltb_lt in H1. pose proof (bytev_range c). unfold between. lia. }
  unfold exV. apply V_map. repeat apply Forall_cons; try apply Forall_nil; cbn [fst snd].
  - split; [apply U; reflexivity|]. apply V_list. repeat apply Forall_cons; try apply Forall_nil; [apply V_int|apply V_nil|apply V_str, U; reflexivity].
  - split; [apply U; reflexivity|]. apply V_map. apply Forall_nil.
Qed.
Example ex_literal : Parser.parseString (jsonString "a<b") = Some "a<b".
Proof. reflexivity. Qed.
(** texts of floats that meet the assumptions: mantissa, "e", binary exponent *)
Definition exFloat (f : spec_float) : list ascii :=
  match f with
  | S754_finite s m e => chars (formatInt (if s then Zneg m else Zpos m) 10) ++ "e"%char :: chars (formatInt e 10)
  | S754_zero s => if s then chars "-0" else chars "0"
  | _ => []
  end.
Example ex_floats : (forall f, finite f = true -> number (exFloat f)) /\
  (forall f f', finite f = true -> finite f' = true -> exFloat f = exFloat f' -> f = f').
Proof.
  assert (Nm : forall z, numeral 10 z (formatInt z 10)) by (intro; apply formatInt_numeral; lia).
  assert (Inj : forall z z', formatInt z 10 = formatInt z' 10 -> z = z') by (intros z z' E; eapply numeral_fun; [apply Nm|rewrite E; apply Nm]).
  assert (P : forall z, exists m i, In m [[]; ["-"%char]] /\ intPart i /\ chars (formatInt z 10) = m ++ i).
  { intro z. destruct (numeral_number _ _ (Nm z)) as (m & i & f & e & Hm & Hi & Hf & He & E).
    destruct (Nm z) as [(L & I & S)|(L & r & Er & I & S)].
    - exists [], (chars (formatInt z 10)). split; [cbn; tauto|]. split; [|reflexivity]. split; [now apply inBase_digits in I|].
      intros q E0. assert (X : formatInt z 10 = String "0" (ofchars q)) by (rewrite <- (ofchars_chars (formatInt z 10)), E0; reflexivity). apply S in X. rewrite <- (chars_ofchars q), X. reflexivity.
    - exists ["-"%char], (chars r). rewrite Er. split; [cbn; tauto|]. split; [|reflexivity]. split; [now apply inBase_digits in I|].
      intros q E0. assert (X : r = String "0" (ofchars q)) by (rewrite <- (ofchars_chars r), E0; reflexivity). apply S in X. rewrite <- (chars_ofchars q), X. reflexivity. }
  assert (NE : forall z, ~ In "e"%char (chars (formatInt z 10))).
  { intros z I. destruct (P z) as (m & i & Hm & [[_ D] _] & E). rewrite E in I. apply in_app_iff in I. destruct I as [I|I]; [destruct Hm as [<-|[<-|[]]]; cbn in I; intuition discriminate|].
    rewrite Forall_forall in D. apply D in I. unfold decDigit in I. cbn in I. intuition discriminate. }
  assert (Sp : forall a a' b b' : list ascii, ~ In "e"%char a -> ~ In "e"%char a' -> a ++ "e"%char :: b = a' ++ "e"%char :: b' -> a = a' /\ b = b').
  { induction a as [|x a IH]; intros [|x' a'] b b' N N' E; cbn in E.
    - injection E as ->. auto.
    - injection E as <- _. exfalso. apply N'. now left.
    - injection E as -> _. exfalso. apply N. now left.
    - injection E as <- E. destruct (IH a' b b') as [-> ->]; auto; intro I; [apply N|apply N']; now right. }
  split.
  - intros [s|s| |s m e] F; try discriminate F.
    + destruct s; [|apply (numeral_number 0 "0"); apply (Nm 0)].
      exists ["-"%char], ["0"%char], [], []. split; [cbn; tauto|]. split; [|split; [now left|split; [now left|reflexivity]]]. split; [split; [discriminate|]|intros r E; now injection E as <-].
      constructor; [unfold decDigit; cbn; tauto|constructor].
    + cbn [exFloat]. destruct (P (if s then Zneg m else Zpos m)) as (mi & i & Hm & Hi & E), (P e) as (me & ie & Hme & [Hie _] & Ee). rewrite E, Ee.
      exists mi, i, [], ("e"%char :: me ++ ie). split; [exact Hm|]. split; [exact Hi|]. split; [now left|]. split; [|now rewrite <- app_assoc].
      right. exists "e"%char, me, ie. split; [cbn; tauto|]. split; [|split; [exact Hie|reflexivity]]. destruct Hme as [<-|[<-|[]]]; cbn; tauto.
  - intros [s|s| |s m e] [s'|s'| |s' m' e'] F F' E; try discriminate F; try discriminate F'; cbn [exFloat] in E.
    + destruct s, s'; try reflexivity; discriminate E.
    + exfalso. assert (I : In "e"%char (if s then chars "-0" else chars "0")) by (rewrite E; apply in_app_iff; right; now left). destruct s; cbn in I; intuition discriminate.
    + exfalso. assert (I : In "e"%char (if s' then chars "-0" else chars "0")) by (rewrite <- E; apply in_app_iff; right; now left). destruct s'; cbn in I; intuition discriminate.
    + destruct (Sp _ _ _ _ (NE _) (NE _) E) as [E1 E2]. assert (CI : forall x y, chars x = chars y -> x = y) by (intros x y H; rewrite <- (ofchars_chars x), H; apply ofchars_chars).
      apply CI, Inj in E1. apply CI, Inj in E2. subst e'. destruct s, s'; congruence.
Qed.

Print Assumptions C60_one_reading.
Print Assumptions C60_asjson.
Print Assumptions C60_document.
Print Assumptions C60_faithful.
Print Assumptions C60_error.
Print Assumptions C60_bytes_refuted.
Print Assumptions C60_goint_refuted.
Print Assumptions C60_literal.
