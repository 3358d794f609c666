(** C57: encryption and decryption. *)
From Coq Require Import Lia.
From Verif Require Import Core CoreFacts Str StrFacts ListFns Crypt CryptSpec PropList PropCompare PropText2.
Import ListNotations.
Open Scope string_scope. Open Scope list_scope.

(** ** hexadecimal texts *)
Definition noPair (l : list ascii) : Prop := forall a b r c, l = a :: b :: r -> ~ hexPair c a b.
Definition digitOf (i : nat) (a : ascii) : Prop := nth_error (chars "0123456789abcdef") i = Some a \/ nth_error (chars "0123456789ABCDEF") i = Some a.
Definition allAscii : list ascii := map ascii_of_nat (seq 0 256).
Lemma all_ascii c : In c allAscii.
Proof. apply in_map_iff. exists (nat_of_ascii c). split; [apply ascii_nat_embedding|]. apply in_seq. pose proof (nat_ascii_bounded c). lia. Qed.
Lemma hexVal_digit a z : hexVal a = Some z <-> exists i, (i < 16)%nat /\ z = Z.of_nat i /\ digitOf i a.
Proof.
  split.
  - intro H. assert (T : forallb (fun a => match hexVal a with Some z => (0 <=? z)%Z && (z <? 16)%Z &&
        (match nth_error (chars "0123456789abcdef") (Z.to_nat z) with Some b => Ascii.eqb b a | None => false end
         || match nth_error (chars "0123456789ABCDEF") (Z.to_nat z) with Some b => Ascii.eqb b a | None => false end) | None => true end) allAscii = true) by (vm_compute; reflexivity).
    rewrite forallb_forall in T. specialize (T a (all_ascii a)). rewrite H in T.
    apply andb_true_iff in T as [T1 T2]. apply andb_true_iff in T1 as [T0 T1]. apply Z.leb_le in T0. apply Z.ltb_lt in T1.
    exists (Z.to_nat z). split; [lia|]. split; [lia|]. unfold digitOf. apply orb_true_iff in T2 as [T2|T2].
    + left. destruct (nth_error _ _) as [b|]; [|discriminate]. apply Ascii.eqb_eq in T2. now subst.
    + right. destruct (nth_error _ _) as [b|]; [|discriminate]. apply Ascii.eqb_eq in T2. now subst.
  - intros (i & L & -> & [D|D]).
    + do 16 (destruct i as [|i]; [cbn in D; injection D as <-; vm_compute; reflexivity|]). lia.
    + do 16 (destruct i as [|i]; [cbn in D; injection D as <-; vm_compute; reflexivity|]). lia.
Qed.
Lemma bytev_N c : bytev c = Z.of_N (N_of_ascii c).
Proof. reflexivity. Qed.
Lemma pair_dec c a b : hexPair c a b <-> exists x y, hexVal a = Some x /\ hexVal b = Some y /\ c = byteof (x * 16 + y).
Proof.
  split.
  - intros (i & j & Li & Lj & N & Da & Db). exists (Z.of_nat i), (Z.of_nat j).
    split; [apply hexVal_digit; eauto|]. split; [apply hexVal_digit; eauto|].
    unfold byteof. replace (Z.to_N (Z.of_nat i * 16 + Z.of_nat j)) with (N_of_ascii c) by (rewrite N; lia). now rewrite ascii_N_embedding.
  - intros (x & y & Hx & Hy & ->). apply hexVal_digit in Hx as (i & Li & -> & Da). apply hexVal_digit in Hy as (j & Lj & -> & Db).
    exists i, j. repeat split; try assumption. unfold byteof. rewrite N_ascii_embedding; lia.
Qed.
Lemma hexDec_text d t rest : hexText d t -> noPair rest -> hexDec (t ++ rest) = d.
Proof.
  induction 1 as [|c a b l t P H IH]; intro N.
  - destruct rest as [|a [|b r]]; try reflexivity. cbn [app hexDec]. destruct (hexVal a) as [x|] eqn:Ea; [|reflexivity]. destruct (hexVal b) as [y|] eqn:Eb; [|reflexivity].
    exfalso. eapply N; [reflexivity|]. apply pair_dec. eauto.
  - apply pair_dec in P as (x & y & Ha & Hb & ->). cbn [app hexDec]. rewrite Ha, Hb. f_equal. auto.
Qed.
Lemma hexDec_all : forall n l, (length l <= n)%nat -> exists t rest, l = t ++ rest /\ hexText (hexDec l) t /\ noPair rest.
Proof.
  induction n as [|n IH]; intros l L.
  - destruct l; [|cbn in L; lia]. exists [], []. repeat split; [constructor|]. intros a b r c E. discriminate.
  - destruct l as [|a [|b r]].
    + exists [], []. repeat split; [constructor|]. intros ? ? ? ? E. discriminate.
    + exists [], [a]. repeat split; [constructor|]. intros ? ? ? ? E. discriminate.
    + cbn [hexDec]. destruct (hexVal a) as [x|] eqn:Ea.
      * destruct (hexVal b) as [y|] eqn:Eb.
        -- destruct (IH r) as (t & rest & -> & H & N); [cbn in L; lia|]. exists (a :: b :: t), rest. repeat split; [|exact N].
           constructor; [|exact H]. apply pair_dec. eauto.
        -- exists [], (a :: b :: r). repeat split; [constructor|]. intros a' b' r' c E P. injection E as <- <- <-. apply pair_dec in P as (? & ? & ? & ? & ?). congruence.
      * exists [], (a :: b :: r). repeat split; [constructor|]. intros a' b' r' c E P. injection E as <- <- <-. apply pair_dec in P as (? & ? & ? & ? & ?). congruence.
Qed.
Lemma hexEnc_text l : hexText l (hexEnc l).
Proof.
  induction l as [|c l IH]; cbn [hexEnc]; constructor; [|exact IH]. pose proof (bytev_range c) as R.
  assert (D : forall z, (0 <= z < 16)%Z -> hexVal (hexDigit z) = Some z).
  { intros z Rz. assert (T : forallb (fun i => match hexVal (hexDigit (Z.of_nat i)) with Some y => (y =? Z.of_nat i)%Z | None => false end) (seq 0 16) = true) by (vm_compute; reflexivity).
    rewrite forallb_forall in T. specialize (T (Z.to_nat z)). rewrite Z2Nat.id in T by lia. assert (I : In (Z.to_nat z) (seq 0 16)) by (apply in_seq; lia). apply T in I.
    destruct (hexVal (hexDigit z)) as [y|]; [|discriminate]. apply Z.eqb_eq in I. congruence. }
  apply pair_dec. exists (bytev c / 16)%Z, (bytev c mod 16)%Z. split; [apply D; lia|]. split; [apply D; lia|].
  replace (bytev c / 16 * 16 + bytev c mod 16)%Z with (bytev c) by lia. now rewrite byteof_bytev.
Qed.
Lemma noPair_nil : noPair [].
Proof. intros a b r c E. discriminate. Qed.
Lemma hexDec_enc l : hexDec (hexEnc l) = l.
Proof. rewrite <- (app_nil_r (hexEnc l)). apply hexDec_text; [apply hexEnc_text|exact noPair_nil]. Qed.

(** ** exclusive or *)
Lemma xorA_twice a b : xorA (xorA a b) b = a.
Proof. destruct a, b. cbn. f_equal; match goal with |- xorb (xorb ?x ?y) ?y = _ => destruct x, y; reflexivity end. Qed.
Lemma xorL_len x : forall y, length x = length y -> length (xorL x y) = length x.
Proof. induction x as [|a x IH]; intros [|b y] L; cbn in *; try discriminate; [reflexivity|]. f_equal. apply IH. lia. Qed.
Lemma xorL_twice x : forall y, length x = length y -> xorL (xorL x y) y = x.
Proof. induction x as [|a x IH]; intros [|b y] L; cbn in *; try discriminate; [reflexivity|]. rewrite xorA_twice. f_equal. apply IH. lia. Qed.

Section C57.
Variables encBlock decBlock : list ascii -> list ascii -> list ascii.
Variable hmac : list ascii -> list ascii.
(** what is used of the block cipher and of the MAC *)
Hypothesis enc_len : forall k b, length b = 8%nat -> length (encBlock k b) = 8%nat.
Hypothesis dec_len : forall k b, length b = 8%nat -> length (decBlock k b) = 8%nat.
Hypothesis dec_enc : forall k b, length k = 24%nat -> length b = 8%nat -> decBlock k (encBlock k b) = b.
Hypothesis enc_dec : forall k b, length k = 24%nat -> length b = 8%nat -> encBlock k (decBlock k b) = b.
Hypothesis mac_len : forall m, length (hmac m) = 32%nat.
Notation chained := (CryptSpec.chained encBlock).
Notation sealed := (CryptSpec.sealed encBlock hmac).
Notation encode := (Crypt.encode encBlock hmac).
Notation decode := (Crypt.decode decBlock hmac).

Lemma key_len key : length (cipherKey key) = 24%nat.
Proof.
  unfold cipherKey. assert (L : length md5empty = 16%nat) by reflexivity. rewrite app_length, !firstn_length, app_length, L. lia.
Qed.
Lemma chained_len k iv t c : chained k iv t c -> length iv = 8%nat -> length c = length t /\ exists n, length t = (8 * n)%nat.
Proof.
  induction 1 as [prev|prev b t c L H IH]; intro Li; [split; [reflexivity|]; now exists 0%nat|].
  assert (Lc : length (encBlock k (xorL b prev)) = 8%nat) by (apply enc_len; rewrite xorL_len; lia).
  destruct (IH Lc) as (E & n & En). rewrite !app_length. split; [lia|]. exists (S n). lia.
Qed.
Lemma firstn_8 {A} (b t : list A) : length b = 8%nat -> firstn 8 (b ++ t) = b /\ skipn 8 (b ++ t) = t.
Proof. intro L. rewrite firstn_app, skipn_app, L, Nat.sub_diag, <- L, firstn_all, skipn_all. cbn. now rewrite app_nil_r. Qed.
Lemma skipn_more {A} (l : list A) : forall i j, skipn j (skipn i l) = skipn (i + j) l.
Proof. induction l as [|x l IH]; intros [|i] j; cbn [skipn Nat.add]; auto. now destruct j. Qed.
Lemma dec_chained k iv t c : length k = 24%nat -> chained k iv t c -> length iv = 8%nat -> forall n, length t = (8 * n)%nat -> cbcDec decBlock n k iv c = t.
Proof.
  intros Lk H. induction H as [prev|prev b t c L H IH]; intros Li n En; destruct n as [|n]; try reflexivity; try (cbn [length] in En; lia).
  - rewrite app_length in En. lia.
  - assert (Lx : length (xorL b prev) = 8%nat) by (rewrite xorL_len; lia).
    assert (Lc : length (encBlock k (xorL b prev)) = 8%nat) by now apply enc_len.
    cbn [cbcDec]. destruct (firstn_8 _ c Lc) as [-> ->]. rewrite dec_enc, xorL_twice by (try assumption; lia). f_equal. apply IH; [exact Lc|]. rewrite app_length in En. lia.
Qed.
Lemma chained_dec k : length k = 24%nat -> forall n iv c, length iv = 8%nat -> length c = (8 * n)%nat -> chained k iv (cbcDec decBlock n k iv c) c.
Proof.
  intro Lk. induction n as [|n IH]; intros iv c Li Lc; cbn [cbcDec].
  - destruct c; [constructor|discriminate Lc].
  - assert (L8 : length (firstn 8 c) = 8%nat) by (rewrite firstn_length; lia).
    assert (E : encBlock k (xorL (xorL (decBlock k (firstn 8 c)) iv) iv) = firstn 8 c).
    { rewrite xorL_twice by (rewrite dec_len; lia). now apply enc_dec. }
    pose proof (C_block encBlock k iv (xorL (decBlock k (firstn 8 c)) iv) (cbcDec decBlock n k (firstn 8 c) (skipn 8 c)) (skipn 8 c)) as C.
    rewrite E, firstn_skipn in C. apply C.
    + rewrite xorL_len; rewrite dec_len; lia.
    + apply IH; [exact L8|]. rewrite skipn_length. lia.
Qed.
Lemma enc_chained k : forall n iv t, length iv = 8%nat -> length t = (8 * n)%nat -> chained k iv t (cbcEnc encBlock n k iv t).
Proof.
  induction n as [|n IH]; intros iv t Li Lt; cbn [cbcEnc].
  - destruct t; [constructor|discriminate Lt].
  - rewrite <- (firstn_skipn 8 t) at 1.
    assert (L8 : length (firstn 8 t) = 8%nat) by (rewrite firstn_length; lia). constructor; [exact L8|].
    apply IH; [|rewrite skipn_length; lia]. apply enc_len. rewrite xorL_len; lia.
Qed.

Lemma pad_facts m : (padOf m < 8)%nat /\ exists n, (m + padOf m + 1 = 8 * n)%nat.
Proof.
  unfold padOf. split; [apply Nat.mod_upper_bound; lia|].
  pose proof (Nat.div_mod (m + 1) 8 ltac:(lia)) as D. pose proof (Nat.mod_upper_bound (m + 1) 8 ltac:(lia)) as U.
  destruct (Nat.eq_dec ((m + 1) mod 8) 0) as [E|E].
  - rewrite E in *. cbn. exists ((m + 1) / 8)%nat. lia.
  - rewrite (Nat.mod_small (8 - _)) by lia. exists ((m + 1) / 8 + 1)%nat. lia.
Qed.

(** An encrypted text is the hexadecimal form of the sealed text, with the random bytes at its begin. *)
Theorem C57_encode iv text key : length iv = 8%nat ->
  exists data, hexText data (chars (encode iv text key)) /\ sealed (cipherKey key) (chars text) data /\ firstn 8 data = iv.
Proof.
  intro Li. set (m := (length (chars text) + 32)%nat). destruct (pad_facts m) as (Pu & n & En).
  set (t := chars text ++ hmac (chars text) ++ repeat (byteof (Z.of_nat (padOf m))) (padOf m) ++ [byteof (Z.of_nat (padOf m))]).
  assert (Lt : length t = (8 * n)%nat). { unfold t. rewrite !app_length, mac_len, repeat_length. cbn [length]. unfold m in *. lia. }
  assert (EE : chars (encode iv text key) = hexEnc (iv ++ cbcEnc encBlock n (cipherKey key) iv t)).
  { unfold Crypt.encode. rewrite chars_ofchars. fold m. f_equal. f_equal. rewrite Nat.add_1_r. cbn [repeat]. rewrite repeat_cons.
    fold t. rewrite Lt. rewrite Nat.mul_comm, Nat.div_mul by lia. reflexivity. }
  exists (iv ++ cbcEnc encBlock n (cipherKey key) iv t). split; [rewrite EE; apply hexEnc_text|]. split; [|apply (firstn_8 _ _ Li)].
  exists iv, (cbcEnc encBlock n (cipherKey key) iv t), (repeat (byteof (Z.of_nat (padOf m))) (padOf m)), (byteof (Z.of_nat (padOf m))).
  split; [exact Li|]. split; [reflexivity|]. split; [|split].
  - apply (enc_chained (cipherKey key) n iv t Li Lt).
  - rewrite repeat_length. unfold byteof. rewrite N_ascii_embedding; lia.
  - rewrite repeat_length. lia.
Qed.

Lemma decode_data text key data : hexDec (chars text) = data -> forall m, decode text key = DText m <-> (chars m <> [] /\ sealed (cipherKey key) (chars m) data).
Proof.
  intros HD m. unfold Crypt.decode. rewrite HD. clear HD. pose proof (key_len key) as Lk. set (k := cipherKey key) in *. split.
  - destruct (Nat.ltb_spec (length data) 8) as [|L]; [discriminate|].
    set (iv := firstn 8 data). set (c := skipn 8 data).
    assert (Li : length iv = 8%nat) by (unfold iv; rewrite firstn_length; lia).
    destruct (Nat.eqb_spec (length c mod 8) 0) as [Em|]; [|discriminate]. cbn [negb].
    assert (Lc : length c = (8 * (length c / 8))%nat) by (pose proof (Nat.div_mod (length c) 8 ltac:(lia)); lia).
    set (n := (length c / 8)%nat) in *. set (t := cbcDec decBlock n k iv c).
    pose proof (chained_dec k Lk n iv c Li Lc) as Ch. fold t in Ch.
    destruct (List.rev t) as [|z r] eqn:Er; [discriminate|].
    assert (Et : t = List.rev r ++ [z]) by (rewrite <- (rev_involutive t), Er; reflexivity).
    pose proof (bytev_range z) as Rz.
    destruct (Z.eq_dec (bytev z) 255) as [E255|N255].
    { rewrite E255. cbn [Z.add Z.modulo]. change ((255 + 1) mod 256)%Z with 0%Z. change (0 <? 1)%Z with true. now rewrite orb_true_r. }
    rewrite (Z.mod_small (bytev z + 1)) by lia.
    destruct (_ || _) eqn:B; [discriminate|]. apply orb_false_iff in B as [B B4]. apply orb_false_iff in B as [B B3]. apply orb_false_iff in B as [B1 B2].
    apply Z.ltb_ge in B1, B4. apply Z.leb_gt in B2, B3.
    set (l := (Z.of_nat (length t) - (bytev z + 1) - 32)%Z) in *.
    destruct (list_eq_dec _ _ _) as [Mac|]; [|discriminate]. intro E. injection E as <-. rewrite chars_ofchars.
    assert (Lm : length (firstn (Z.to_nat l) t) = Z.to_nat l) by (rewrite firstn_length; lia).
    split; [intro E; rewrite E in Lm; cbn in Lm; lia|].
    set (j := (Z.to_nat l + 32)%nat).
    assert (Lt : length t = S (length r)) by (rewrite Et, app_length, rev_length; cbn; lia).
    assert (Sk : skipn j t = skipn j (List.rev r) ++ [z]).
    { rewrite Et, skipn_app. replace (j - length (List.rev r))%nat with 0%nat by (rewrite rev_length; unfold j; lia). reflexivity. }
    assert (T3 : t = firstn (Z.to_nat l) t ++ hmac (firstn (Z.to_nat l) t) ++ skipn j (List.rev r) ++ [z]).
    { rewrite <- Sk, <- Mac. unfold j. rewrite <- (firstn_skipn (Z.to_nat l) t) at 1. f_equal. rewrite <- (firstn_skipn 32 (skipn (Z.to_nat l) t)) at 1. f_equal.
      apply skipn_more. }
    exists iv, c, (skipn j (List.rev r)), z. split; [exact Li|]. split; [unfold iv, c; symmetry; apply firstn_skipn|]. rewrite <- T3. split; [exact Ch|].
    assert (Lp : length (skipn j (List.rev r)) = Z.to_nat (bytev z)) by (rewrite skipn_length, rev_length; unfold j, l; lia).
    rewrite Lp. unfold bytev in *. split; lia.
  - intros (Nm & iv & c & p & z & Li & -> & Ch & Ez & Lp). set (msg := chars m) in *.
    destruct (chained_len _ _ _ _ Ch Li) as (Lc & n & Ln).
    rewrite app_length, Li. destruct (Nat.ltb_spec (8 + length c) 8) as [|_]; [lia|].
    destruct (firstn_8 iv c Li) as [-> ->]. rewrite Lc, Ln, Nat.mul_comm, Nat.mod_mul, Nat.div_mul by lia. cbn [Nat.eqb negb].
    rewrite (dec_chained k iv _ c Lk Ch Li n Ln).
    rewrite !app_assoc, rev_app_distr. cbn [List.rev app]. rewrite <- !app_assoc.
    assert (Lz : bytev z = Z.of_nat (length p)) by (unfold bytev; lia).
    set (t := msg ++ hmac msg ++ p ++ [z]).
    assert (Lt : length t = (length msg + 32 + length p + 1)%nat) by (unfold t; rewrite !app_length, mac_len; cbn [length]; lia).
    assert (Lm : (0 < length msg)%nat) by (destruct msg; [contradiction|cbn; lia]).
    rewrite (Z.mod_small (bytev z + 1)) by lia.
    destruct (_ || _) eqn:B.
    { exfalso. apply orb_true_iff in B as [B|B]; [apply orb_true_iff in B as [B|B]; [apply orb_true_iff in B as [B|B]|]|];
        first [apply Z.ltb_lt in B|apply Z.leb_le in B]; lia. }
    replace (Z.to_nat (Z.of_nat (length t) - (bytev z + 1) - 32)) with (length msg) by lia.
    unfold t. rewrite firstn_app, skipn_app, Nat.sub_diag, firstn_all, skipn_all, firstn_O, skipn_O, app_nil_r. cbn [app].
    replace (firstn 32 (hmac msg ++ p ++ [z])) with (hmac msg) by (rewrite firstn_app, mac_len, Nat.sub_diag, <- (mac_len msg), firstn_all; cbn [firstn]; now rewrite app_nil_r).
    destruct (list_eq_dec _ _ _) as [_|N]; [|now contradiction N]. unfold msg. now rewrite ofchars_chars.
Qed.

(** Exactly the sealed texts are decrypted, to the message they contain.  Digits after the first
    wrong pair of digits are ignored; the empty message is never accepted. *)
Theorem C57_accepted text key m : decode text key = DText m <->
  exists data t rest, chars text = t ++ rest /\ hexText data t /\ noPair rest /\ m <> "" /\ sealed (cipherKey key) (chars m) data.
Proof.
  rewrite (decode_data text key _ eq_refl). split.
  - intros (N & S). destruct (hexDec_all _ (chars text) (le_n _)) as (t & rest & E & H & NP).
    exists (hexDec (chars text)), t, rest. repeat split; try assumption. intros ->. now apply N.
  - intros (data & t & rest & E & H & NP & N & S). rewrite E, (hexDec_text _ _ _ H NP). split; [|exact S].
    destruct m; [now contradiction N|discriminate].
Qed.

(** Decrypting an encrypted text with the same key gives the text, whatever the random bytes are. *)
Theorem C57_roundtrip iv text key : length iv = 8%nat -> text <> "" -> decode (encode iv text key) key = DText text.
Proof.
  intros Li N. apply C57_accepted. destruct (C57_encode iv text key Li) as (data & H & S & _).
  exists data, (chars (encode iv text key)), []. rewrite app_nil_r. repeat split; auto using noPair_nil.
Qed.
(** ... except the empty text, which cannot be decrypted any more. *)
Theorem C57_empty_refuted iv key : decode (encode iv "" key) key <> DText "".
Proof. intro H. apply C57_accepted in H as (? & ? & ? & _ & _ & _ & N & _). now contradiction N. Qed.

(** A text that is changed is only accepted if the changed text has again a matching MAC: the
    message is determined by the data. *)
Theorem C57_one_message key data m m' : sealed (cipherKey key) m data -> sealed (cipherKey key) m' data -> m = m'.
Proof.
  intros (iv & c & p & z & Li & -> & Ch & Ez & Lp) (iv' & c' & p' & z' & Li' & E & Ch' & Ez' & Lp').
  pose proof (firstn_8 iv c Li) as [F S]. rewrite E in F, S. destruct (firstn_8 iv' c' Li') as [F' S']. rewrite F' in F. rewrite S' in S. subst iv' c'.
  destruct (chained_len _ _ _ _ Ch Li) as (Lc & n & Ln). destruct (chained_len _ _ _ _ Ch' Li) as (Lc' & _).
  pose proof (dec_chained _ _ _ _ (key_len key) Ch Li n Ln) as D. rewrite (dec_chained _ _ _ _ (key_len key) Ch' Li n ltac:(congruence)) in D.
  rewrite !app_assoc in D. apply app_inj_tail in D as [D ->]. assert (LP : length p = length p') by lia.
  assert (LM : length m = length m') by (apply (f_equal (@length _)) in D; rewrite !app_length, !mac_len in D; lia).
  assert (G : forall (a b a' b' : list ascii), length a = length a' -> a ++ b = a' ++ b' -> a = a').
  { induction a as [|x a IH]; intros b [|x' a'] b' L X; try discriminate L; [reflexivity|]. injection X as -> X. f_equal. eapply IH; [|exact X]. now injection L. }
  rewrite <- !app_assoc in D. eapply G; [|symmetry; exact D]. congruence.
Qed.

(** The decryption crashes exactly for texts of 8 bytes; it needs no key for that. *)
Theorem C57_crash text key : decode text key = DPanic <-> length (hexDec (chars text)) = 8%nat.
Proof.
  unfold Crypt.decode. set (d := hexDec (chars text)). destruct (Nat.ltb_spec (length d) 8) as [L|L]; [split; [discriminate|lia]|].
  destruct (Nat.eqb_spec (length (skipn 8 d) mod 8) 0) as [Em|Nm]; cbn [negb].
  2:{ split; [discriminate|]. intro E. exfalso. apply Nm. now rewrite skipn_length, E. }
  destruct (Nat.eq_dec (length d) 8) as [E|N].
  - split; [auto|]. intros _. rewrite skipn_length, E. reflexivity.
  - split; [|lia]. rewrite skipn_length in *. assert (D : (length d - 8 = 8 * ((length d - 8) / 8))%nat) by (pose proof (Nat.div_mod (length d - 8) 8 ltac:(lia)); lia).
    destruct ((length d - 8) / 8)%nat as [|n]; [lia|]. cbn [cbcDec].
    destruct (List.rev _) as [|z r] eqn:Er.
    + apply (f_equal (@length _)) in Er. rewrite rev_length, app_length, xorL_len in Er; rewrite ?dec_len in *; rewrite ?firstn_length, ?skipn_length in *; cbn in Er; lia.
    + repeat (match goal with |- (if ?x then _ else _) = _ -> _ => destruct x; try discriminate end).
Qed.

(** Only the first 16 bytes of the key count (and, if it is shorter, a fixed text after it). *)
Theorem C57_key_bytes key key' : cipherKey key = cipherKey key' <-> firstn 16 (chars key ++ md5empty) = firstn 16 (chars key' ++ md5empty).
Proof.
  unfold cipherKey. assert (L : length md5empty = 16%nat) by reflexivity.
  assert (G : forall a : list ascii, (16 <= length a)%nat -> firstn 16 (firstn 16 a ++ firstn 8 a) = firstn 16 a).
  { intros a La. rewrite firstn_app, firstn_firstn, firstn_length. replace (16 - Nat.min 16 (length a))%nat with 0%nat by lia. cbn [Nat.min firstn]. apply app_nil_r. }
  split; intro E.
  - rewrite <- (G (chars key ++ md5empty)), <- (G (chars key' ++ md5empty)) by (rewrite app_length; lia). now rewrite E.
  - rewrite E. f_equal. apply (f_equal (firstn 8)) in E. rewrite !firstn_firstn in E. exact E.
Qed.

(** Keys that agree in the first 16 bytes are interchangeable: a wrong key is accepted. *)
Theorem C57_wrong_key_refuted iv text : length iv = 8%nat -> text <> "" ->
  decode (encode iv text "0123456789abcdef-mine") "0123456789abcdef-other" = DText text.
Proof.
  intros Li N. assert (E : cipherKey "0123456789abcdef-mine" = cipherKey "0123456789abcdef-other") by (vm_compute; reflexivity).
  replace (encode iv text "0123456789abcdef-mine") with (encode iv text "0123456789abcdef-other") by (unfold Crypt.encode; now rewrite E). now apply C57_roundtrip.
Qed.

(** ** the functions encrypt and decrypt *)
Variable encodings : string -> option encoding.
Hypothesis std : encodings tripleDES = Some (des1 encBlock decBlock hmac).
Variable marshal : value -> option string.
Variable importText : string -> ores value.
Notation encrypt := (func_encrypt encodings marshal).
Notation decrypt := (func_decrypt encodings importText).

(** With a password, or with the key of the environment, decrypt inverts encrypt: it delivers what
    the YAML text of the value is read as. *)
Theorem C57_password iv v text pw k k' : length iv = 8%nat -> marshal v = Some text -> text <> "" -> pw <> "" -> encodings pw = None ->
  exists c, encrypt iv k [v; VStr pw] = OVal (VStr c) /\ decrypt k' [VStr c; VStr pw] = importText text.
Proof.
  intros Li M N P E. unfold func_encrypt, func_decrypt, choose. rewrite M, E, std. apply String.eqb_neq in P. rewrite P. cbn [e_encode e_decode des1].
  eexists. split; [reflexivity|]. now rewrite C57_roundtrip.
Qed.
Theorem C57_environment iv v text k rest : length iv = 8%nat -> marshal v = Some text -> text <> "" -> k <> "" ->
  rest = [] \/ rest = [VStr tripleDES] ->
  exists c, encrypt iv k (v :: rest) = OVal (VStr c) /\ decrypt k (VStr c :: rest) = importText text.
Proof.
  intros Li M N P R. apply String.eqb_neq in P. destruct R as [-> | ->]; unfold func_encrypt, func_decrypt, choose; rewrite M, !std, P; cbn [e_encode e_decode des1];
    (eexists; split; [reflexivity|]; now rewrite C57_roundtrip).
Qed.
(** Without any key nothing is encrypted or decrypted. *)
Theorem C57_no_key iv v text c : marshal v = Some text -> encrypt iv "" [v] = OErr /\ decrypt "" [VStr c] = OErr.
Proof. intro M. unfold func_encrypt, func_decrypt, choose. rewrite M, std. split; reflexivity. Qed.
(** Everything else is refused with an error: a text which is not the encryption of any text with
    this key (and does not crash). *)
Theorem C57_refused c k rest : k <> "" -> rest = [] \/ rest = [VStr tripleDES] ->
  (forall data t u, chars c = t ++ u -> hexText data t -> noPair u -> length data <> 8%nat /\ forall m, m <> "" -> ~ sealed (cipherKey k) (chars m) data) ->
  decrypt k (VStr c :: rest) = OErr.
Proof.
  intros P R H. assert (D : decode c k = DErr).
  { destruct (decode c k) eqn:E; try reflexivity; exfalso; destruct (hexDec_all _ (chars c) (le_n _)) as (t & rest' & E1 & H1 & NP).
    all: first [apply C57_crash in E; now apply (H _ _ _ E1 H1 NP)|apply C57_accepted in E as (data & t' & u & E2 & H2 & N2 & NE & S); exact (proj2 (H _ _ _ E2 H2 N2) _ NE S)]. }
  apply String.eqb_neq in P. destruct R as [-> | ->]; unfold func_decrypt, choose; rewrite !std, P; cbn [e_encode e_decode des1]; now rewrite D.
Qed.
(** An unknown method is an error. *)
Theorem C57_unknown_method iv v text k pw m c : marshal v = Some text -> encodings m = None ->
  encrypt iv k [v; VStr pw; VStr m] = OErr /\ decrypt k [VStr c; VStr pw; VStr m] = OErr.
Proof. intros M E. unfold func_encrypt, func_decrypt, choose. rewrite M, E. split; reflexivity. Qed.

(** Password and method together: the password is ignored, the key of the environment is used
    (and without it the call fails). *)
Theorem C57_password_and_method_refuted iv v k pw pw' m c :
  encrypt iv k [v; VStr pw; VStr m] = encrypt iv k [v; VStr pw'; VStr m] /\
  decrypt k [VStr c; VStr pw; VStr m] = decrypt k [VStr c; VStr pw'; VStr m] /\
  encrypt iv "" [v; VStr pw; VStr m] = OErr.
Proof.
  unfold func_encrypt, func_decrypt, choose. repeat split. destruct (marshal v); [|reflexivity]. now destruct (encodings m).
Qed.
End C57.

(** ** Examples: the hypotheses hold for a toy cipher (the identity) and a toy MAC *)
Definition idBlock (k b : list ascii) : list ascii := b.
Definition toyMac (m : list ascii) : list ascii := firstn 32 (m ++ repeat "0"%char 32).
Lemma toyMac_len m : length (toyMac m) = 32%nat.
Proof. unfold toyMac. rewrite firstn_length, app_length, repeat_length. lia. Qed.
Definition iv0 : list ascii := chars "abcdefgh".
Example ex_crypt_run : decode idBlock toyMac (encode idBlock toyMac iv0 "secret" "key") "key" = DText "secret" /\
  decode idBlock toyMac "0011223344556677" "key" = DPanic /\ decode idBlock toyMac "zz" "key" = DErr.
Proof. vm_compute. repeat split. Qed.
Example ex_crypt_hyp : (forall k b, length b = 8%nat -> length (idBlock k b) = 8%nat) /\
  (forall k b, length k = 24%nat -> length b = 8%nat -> idBlock k (idBlock k b) = b) /\ (forall m, length (toyMac m) = 32%nat) /\ length iv0 = 8%nat /\
  (let reg m := if String.eqb m tripleDES then Some (des1 idBlock idBlock toyMac) else None in
   reg tripleDES = Some (des1 idBlock idBlock toyMac) /\ reg "password"%string = None).
Proof. repeat split; auto using toyMac_len. Qed.

Print Assumptions C57_encode.
Print Assumptions C57_accepted.
Print Assumptions C57_roundtrip.
Print Assumptions C57_empty_refuted.
Print Assumptions C57_one_message.
Print Assumptions C57_crash.
Print Assumptions C57_key_bytes.
Print Assumptions C57_wrong_key_refuted.
Print Assumptions C57_password.
Print Assumptions C57_environment.
Print Assumptions C57_no_key.
Print Assumptions C57_unknown_method.
Print Assumptions C57_password_and_method_refuted.

Print Assumptions C57_refused.
