(** C59: digests of texts and passwords. *)
From Coq Require Import Lia.
From Verif Require Import Core CoreFacts Str StrFacts ListFns PropList PropCompare PropText PropText2 Crypt CryptSpec PropCrypt Digest DigestSpec.
Import ListNotations.
Open Scope string_scope. Open Scope list_scope. Open Scope Z_scope.

(** ** digits *)
Lemma digit64_at d : 0 <= d < 64 -> digit64 (Z.to_nat d) (itoa64At d).
Proof.
  intro R. unfold digit64, itoa64At, itoa64. apply nth_error_nth'. change (length _) with (Z.to_nat 64). lia.
Qed.
Lemma digit64_inj d d' c : digit64 d c -> digit64 d' c -> d = d'.
Proof.
  unfold digit64. intros H H'. assert (ND : NoDup (chars "./0123456789ABCDEFGHIJKLMNOPQRSTUVWXYZabcdefghijklmnopqrstuvwxyz")).
  { cbn. repeat constructor; cbn; intuition discriminate. }
  rewrite NoDup_nth_error in ND. apply ND; [|congruence]. apply nth_error_Some. congruence.
Qed.
Lemma digit64_lt d c : digit64 d c -> (d < 64)%nat.
Proof. intro H. assert (d < length (chars "./0123456789ABCDEFGHIJKLMNOPQRSTUVWXYZabcdefghijklmnopqrstuvwxyz"))%nat by (apply nth_error_Some; unfold digit64 in H; congruence). exact H0. Qed.
Lemma digit64_not_dollar d : ~ digit64 d "$".
Proof.
  unfold digit64. intro H. apply nth_error_In in H. cbn in H. intuition discriminate.
Qed.
Lemma digits_fun l z : base64digits l z -> forall z', base64digits l z' -> z = z'.
Proof.
  induction 1 as [|c d l z D H IH]; intros z' H'; inversion H' as [|c' d' l' y D' H'']; subst; [reflexivity|].
  rewrite (digit64_inj _ _ _ D D'), (IH _ H''). reflexivity.
Qed.
Lemma digits_inj l z : base64digits l z -> forall l', base64digits l' z -> length l = length l' -> l = l'.
Proof.
  induction 1 as [|c d l z D H IH]; intros l' H' E.
  - destruct l'; [reflexivity|discriminate E].
  - remember (Z.of_nat d + 64 * z) as w eqn:Ew. destruct H' as [|c' d' l'' y D' H'']; [discriminate E|].
    pose proof (digit64_lt _ _ D). pose proof (digit64_lt _ _ D').
    assert (z = y /\ Z.of_nat d = Z.of_nat d') as [-> Ed] by (apply (Z.div_mod_unique 64); lia).
    replace d' with d in D' by lia. f_equal; [unfold digit64 in *; congruence|]. apply IH; [exact H''|now injection E].
Qed.
Lemma digits_app l z : base64digits l z -> forall l' z', base64digits l' z' -> base64digits (l ++ l') (z + 64 ^ Z.of_nat (length l) * z').
Proof.
  induction 1 as [|c d l z D H IH]; intros l' z' H'.
  - cbn [app length]. change (64 ^ Z.of_nat 0) with 1; rewrite Z.mul_1_l, Z.add_0_l. exact H'.
  - cbn [app length]. rewrite Nat2Z.inj_succ, Z.pow_succ_r by lia.
    replace (Z.of_nat d + 64 * z + 64 * 64 ^ Z.of_nat (length l) * z') with (Z.of_nat d + 64 * (z + 64 ^ Z.of_nat (length l) * z')) by ring.
    constructor; [exact D|]. now apply IH.
Qed.
Lemma digits_one d : 0 <= d < 64 -> base64digits [itoa64At d] d.
Proof. intro R. replace d with (Z.of_nat (Z.to_nat d) + 64 * 0) at 2 by lia. constructor; [now apply digit64_at|constructor]. Qed.

Lemma emit_spec fuel : forall v bits result, 0 < bits -> 0 <= v < 2 ^ bits -> bits <= 6 * Z.of_nat fuel ->
  exists t v' bits' z, emit fuel v bits result = (v', bits', result ++ t) /\ base64digits t z /\ v = z + 64 ^ Z.of_nat (length t) * v' /\
    bits = bits' + 6 * Z.of_nat (length t) /\ 0 < bits' <= 6 /\ 0 <= v' < 2 ^ bits'.
Proof.
  induction fuel as [|fuel IH]; intros v bits result B V F; [lia|]. cbn [emit]. rewrite Z.gtb_ltb. destruct (Z.ltb_spec 6 bits) as [L|L].
  - destruct (IH (v / 64) (bits - 6) (result ++ [itoa64At (v mod 64)])) as (t & v' & b' & z & E & D & Ev & Eb & Rb & Rv); [lia| |lia|].
    { split; [apply Z.div_pos; lia|]. apply Z.div_lt_upper_bound; [lia|]. change 64 with (2 ^ 6). rewrite <- Z.pow_add_r by lia. replace (6 + (bits - 6)) with bits by lia. lia. }
    exists (itoa64At (v mod 64) :: t), v', b', (v mod 64 + 64 * z). split; [rewrite E, <- app_assoc; reflexivity|].
    pose proof (Z.mod_pos_bound v 64 ltac:(lia)) as M. split.
    { rewrite <- (Z2Nat.id (v mod 64)) at 2 by lia. constructor; [now apply digit64_at|exact D]. }
    cbn [length]. rewrite Nat2Z.inj_succ, Z.pow_succ_r by lia. split; [|split; [lia|auto]].
    rewrite (Z.div_mod v 64) at 1 by lia. rewrite Ev. ring.
  - exists [], v, bits, 0. split; [now rewrite app_nil_r|]. split; [constructor|]. change (Z.of_nat (length (@nil ascii))) with 0. rewrite Z.pow_0_r. lia.
Qed.
Lemma encode_spec final order : forall v bits result, 0 <= bits <= 6 -> 0 <= v < 2 ^ bits ->
  exists t b, encodeLoop final order v bits result = result ++ t /\ base64digits t (v + 2 ^ bits * bytesNum (map (fun i => nth i final "000"%char) order)) /\
    bits + 8 * Z.of_nat (length order) = b + 6 * (Z.of_nat (length t) - 1) /\ 0 <= b <= 6 /\ (order <> [] -> 0 < b) /\ (order = [] -> b = bits).
Proof.
  induction order as [|i order IH]; intros v bits result B V; cbn [encodeLoop].
  - exists [itoa64At (v mod 64)], bits. split; [reflexivity|]. cbn [map bytesNum length]. rewrite Z.mul_0_r, Z.add_0_r.
    assert (v < 64). { change 64 with (2 ^ 6). eapply Z.lt_le_trans; [apply V|]. apply Z.pow_le_mono_r; lia. }
    rewrite Z.mod_small by lia. split; [now apply digits_one|]. split; [cbn; lia|]. split; [exact B|]. split; [congruence|auto].
  - set (x := bytev (nth i final "000"%char)). assert (X : 0 <= x < 256) by apply bytev_range.
    assert (P : 0 < 2 ^ bits) by (apply Z.pow_pos_nonneg; lia).
    assert (R : 0 <= v + x * 2 ^ bits < 2 ^ (bits + 8)). { rewrite Z.pow_add_r by lia. change (2 ^ 8) with 256. nia. }
    cbv zeta.
    destruct (emit_spec 3 (v + x * 2 ^ bits) (bits + 8) result) as (t & v' & b' & z & E & D & Ev & Eb & Rb & Rv); [lia|exact R|lia|].
    rewrite E. destruct (IH v' b' (result ++ t)) as (t' & b & E' & D' & El & Rb' & Pb & Pe); [lia|exact Rv|].
    exists (t ++ t'), b. split; [now rewrite E', <- app_assoc|]. split; [|split].
    + pose proof (digits_app _ _ D _ _ D') as DD. change (bytesNum (map (fun i => nth i final "000"%char) (i :: order))) with (x + 256 * bytesNum (map (fun i => nth i final "000"%char) order)).
      match type of DD with base64digits _ ?a => match goal with |- base64digits _ ?c => replace c with a; [exact DD|] end end.
      set (Y := bytesNum _). replace (v + 2 ^ bits * (x + 256 * Y)) with (v + x * 2 ^ bits + 2 ^ bits * (256 * Y)) by ring. rewrite Ev.
      assert (Q : 2 ^ bits * (256 * Y) = 64 ^ Z.of_nat (length t) * (2 ^ b' * Y)).
      { change 256 with (2 ^ 8). change 64 with (2 ^ 6). rewrite <- Z.pow_mul_r by lia. rewrite !Z.mul_assoc, <- !Z.pow_add_r by lia. do 2 f_equal. lia. }
      rewrite Q. ring.
    + rewrite app_length. cbn [length]. lia.
    + split; [exact Rb'|]. split; [|discriminate]. intros _. destruct order as [|j order]; [|apply Pb; discriminate]. rewrite (Pe eq_refl). lia.
Qed.
Lemma encode_16 d : exists t, encodeLoop d swaps 0 0 [] = t /\ length t = 22%nat /\ base64digits t (bytesNum (written d)).
Proof.
  destruct (encode_spec d swaps 0 0 []) as (t & b & E & D & El & Rb & Pb & _); [lia|cbn; lia|]. exists t. split; [exact E|]. split.
  - assert (0 < b) by (apply Pb; discriminate). change (Z.of_nat (length swaps)) with 16 in El. lia.
  - change (0 + 2 ^ 0 * bytesNum (map (fun i => nth i d "000"%char) swaps)) with (1 * bytesNum (written d)) in D. now rewrite Z.mul_1_l in D.
Qed.

(** ** the digest *)
Lemma bytesNum_inj l : forall l', length l = length l' -> bytesNum l = bytesNum l' -> l = l'.
Proof.
  induction l as [|c l IH]; intros [|d l'] E N; try discriminate E; [reflexivity|]. change (bytev c + 256 * bytesNum l = bytev d + 256 * bytesNum l') in N.
  pose proof (bytev_range c). pose proof (bytev_range d).
  assert (bytesNum l = bytesNum l' /\ bytev c = bytev d) as [N1 N2] by (apply (Z.div_mod_unique 256); lia).
  f_equal; [rewrite <- (byteof_bytev c), <- (byteof_bytev d), N2; reflexivity|]. apply IH; [now injection E|exact N1].
Qed.
Lemma written_inj d d' : length d = 16%nat -> length d' = 16%nat -> written d = written d' -> d = d'.
Proof.
  intros L L'. do 16 (destruct d as [|? d]; [discriminate L|]). destruct d; [|discriminate L].
  do 16 (destruct d' as [|? d']; [discriminate L'|]). destruct d'; [|discriminate L'].
  cbn. intro E. congruence.
Qed.
Lemma repeated_fun m n l l' : repeated m n l -> repeated m n l' -> l = l'.
Proof.
  intros [L A] [L' A']. revert n L L' A A'. revert l'.
  assert (X : forall (l l' : list ascii), length l = length l' -> (forall i, (i < length l)%nat -> nth_error l i = nth_error l' i) -> l = l').
  { induction l0 as [|c l0 IH]; intros [|c' l'] E H; try discriminate E; [reflexivity|]. f_equal; [specialize (H 0%nat ltac:(cbn; lia)); cbn in H; congruence|].
    apply IH; [now injection E|]. intros i I. apply (H (S i)). cbn. lia. }
  intros l' n L L' A A'. apply X; [lia|]. intros i I. destruct (A i) as (c & E1 & E2); [lia|]. destruct (A' i) as (c' & E1' & E2'); [lia|]. congruence.
Qed.
Lemma binary_fun c n l l' : 0 <= n -> binaryBytes c n l -> binaryBytes c n l' -> l = l'.
Proof.
  intros N [[U Lo] A] [[U' Lo'] A'].
  assert (X : forall (l l' : list ascii), length l = length l' -> (forall i x y, nth_error l i = Some x -> nth_error l' i = Some y -> x = y) -> l = l').
  { induction l0 as [|a l0 IH]; intros [|a' l0'] E H; try discriminate E; [reflexivity|]. f_equal; [apply (H 0%nat); reflexivity|].
    apply IH; [now injection E|]. intros i x y. apply (H (S i)). }
  apply X.
  - assert (T : forall (l l' : list ascii), 2 ^ Z.of_nat (length l) > n -> (l' <> [] -> 2 ^ (Z.of_nat (length l') - 1) <= n) -> (length l' <= length l)%nat).
    { intros k k' H H'. destruct k' as [|x k']; [cbn; lia|]. specialize (H' ltac:(discriminate)). cbn [length] in *.
      destruct (Nat.le_gt_cases (S (length k')) (length k)) as [Y|Y]; [exact Y|exfalso].
      assert (2 ^ Z.of_nat (length k) <= 2 ^ (Z.of_nat (S (length k')) - 1)) by (apply Z.pow_le_mono_r; lia). lia. }
    apply Nat.le_antisymm; apply T; assumption.
  - intros i x y E E'. rewrite (A _ _ E), (A' _ _ E'). reflexivity.
Qed.
Lemma lengthBits_spec c p : binaryBytes c (Zpos p) (lengthBits c p).
Proof.
  induction p as [p IH|p IH|]; cbn [lengthBits].
  - destruct IH as [[U L] A]. split.
    + cbn [length]. rewrite Nat2Z.inj_succ, Z.pow_succ_r by lia. split; [lia|]. intros _. rewrite Z.sub_1_r, Z.pred_succ.
      destruct (lengthBits c p) as [|x r] eqn:E; [destruct p; discriminate E|]. specialize (L ltac:(discriminate)). cbn [length] in *. rewrite Nat2Z.inj_succ in *. rewrite Z.sub_1_r, Z.pred_succ in L. rewrite Z.pow_succ_r by lia. lia.
    + intros [|i] x E; cbn in E; [injection E as <-; reflexivity|]. rewrite Nat2Z.inj_succ. rewrite (A _ _ E).
      change (Zpos p~1) with (2 * Zpos p + 1). rewrite Z.testbit_odd_succ by lia. reflexivity.
  - destruct IH as [[U L] A]. split.
    + cbn [length]. rewrite Nat2Z.inj_succ, Z.pow_succ_r by lia. split; [lia|]. intros _. rewrite Z.sub_1_r, Z.pred_succ.
      destruct (lengthBits c p) as [|x r] eqn:E; [destruct p; discriminate E|]. specialize (L ltac:(discriminate)). cbn [length] in *. rewrite Nat2Z.inj_succ in *. rewrite Z.sub_1_r, Z.pred_succ in L. rewrite Z.pow_succ_r by lia. lia.
    + intros [|i] x E; cbn in E; [injection E as <-; reflexivity|]. rewrite Nat2Z.inj_succ. rewrite (A _ _ E).
      change (Zpos p~0) with (2 * Zpos p). rewrite Z.testbit_even_succ by lia. reflexivity.
  - split; [cbn; split; [lia|intros _; lia]|]. intros [|i] x E; cbn in E; [injection E as <-; reflexivity|]. destruct i; discriminate E.
Qed.
Lemma lengthBytes_spec pw : binaryBytes (hd "000"%char pw) (Z.of_nat (length pw)) (lengthBytes pw).
Proof.
  unfold lengthBytes. destruct (Z.of_nat (length pw)) as [|p|p] eqn:E; [|apply lengthBits_spec|lia].
  split; [cbn; split; [lia|congruence]|]. intros [|i] x X; discriminate X.
Qed.

Section Md5.
Variable md5 : list ascii -> list ascii.
Hypothesis md5_len : forall t, length (md5 t) = 16%nat.

Lemma mixed_spec m pw : length m = 16%nat -> repeated m (length pw) (mixed m pw).
Proof.
  intro L. unfold repeated, mixed. split; [now rewrite map_length, seq_length|]. intros i I. exists (nth (i mod 16) m "000"%char). split.
  - apply nth_error_nth'. rewrite L. apply Nat.mod_upper_bound. discriminate.
  - rewrite nth_error_map. rewrite (nth_error_nth' _ 0%nat) by (rewrite seq_length; exact I). rewrite seq_nth by exact I. reflexivity.
Qed.
Lemma rounds_snoc pw salt i d j d' : roundsOf md5 pw salt i d j d' -> forall d'', d'' = snd (round md5 pw salt (j, d')) -> roundsOf md5 pw salt i d (j + 1) d''.
Proof.
  assert (Ev : forall i, (i mod 2 =? 0) = Z.even i) by (intro k; rewrite Zmod_even; now destruct (Z.even k)).
  induction 1 as [i d|i d j d' t Et H IH]; intros d'' ->.
  - eapply R_step; [reflexivity|]. cbn [round snd]. rewrite Ev. apply R_end.
  - eapply R_step; [exact Et|]. now apply IH.
Qed.
Lemma rounds_all pw salt d n : exists d', Pos.iter (round md5 pw salt) (0, d) n = (Zpos n, d') /\ roundsOf md5 pw salt 0 d (Zpos n) d'.
Proof.
  induction n as [|n IH] using Pos.peano_ind.
  - eexists. split; [reflexivity|]. apply (rounds_snoc pw salt 0 d 0 d (R_end _ _ _ _ _)). reflexivity.
  - destruct IH as (d' & E & R). rewrite Pos.iter_succ, E. eexists. split; [cbn [round]; f_equal; lia|].
    replace (Zpos (Pos.succ n)) with (Zpos n + 1) by lia. eapply rounds_snoc; [exact R|reflexivity].
Qed.
Lemma final_apr1 pw salt magic : apr1 md5 pw salt magic (finalDigest md5 pw salt magic).
Proof.
  exists (mixed (md5 (pw ++ salt ++ pw)) pw), (lengthBytes pw). split; [now apply mixed_spec|]. split; [apply lengthBytes_spec|].
  unfold finalDigest. destruct (rounds_all pw salt (firstDigest md5 pw salt magic) 1000) as (d & E & R). rewrite E. exact R.
Qed.
Lemma rounds_le pw salt i d j d' : roundsOf md5 pw salt i d j d' -> i <= j.
Proof. induction 1; lia. Qed.
Lemma rounds_fun pw salt i d j d' : roundsOf md5 pw salt i d j d' -> forall d'', roundsOf md5 pw salt i d j d'' -> d' = d''.
Proof.
  induction 1 as [i d|i d j d' t Et H IH]; intros d'' H''.
  - inversion H'' as [|? ? ? ? t Et Hr]; [reflexivity|]. apply rounds_le in Hr. lia.
  - inversion H'' as [Z1 Z2|? ? ? ? t' Et' Hr]; subst; [apply rounds_le in H; lia|]. now apply IH.
Qed.
Lemma apr1_fun pw salt magic d d' : apr1 md5 pw salt magic d -> apr1 md5 pw salt magic d' -> d = d'.
Proof.
  intros (m & b & M & B & R) (m' & b' & M' & B' & R'). rewrite (repeated_fun _ _ _ _ M' M) in R'. rewrite (binary_fun _ _ _ _ (Zle_0_nat _) B' B) in R'. eapply rounds_fun; eauto.
Qed.
Lemma rounds_len pw salt i d j d' : roundsOf md5 pw salt i d j d' -> length d = 16%nat -> length d' = 16%nat.
Proof. induction 1; auto. Qed.
Lemma apr1_len pw salt magic d : apr1 md5 pw salt magic d -> length d = 16%nat.
Proof. intros (m & b & M & B & R). eapply rounds_len; [exact R|apply md5_len]. Qed.

(** the entry of a password, a magic and a salt exists and is unique *)
Lemma md5Crypt_entry pw m s h : entry md5 pw m s h <-> h = ofchars (md5Crypt md5 (chars pw) (chars s) (chars ("$" +++ m +++ "$"))).
Proof.
  unfold entry, md5Crypt. destruct (encode_16 (finalDigest md5 (chars pw) (chars s) (chars ("$" +++ m +++ "$")))) as (t & E & L & D). rewrite E.
  assert (X : ofchars (chars ("$" +++ m +++ "$") ++ chars s ++ ["$"%char] ++ t) = "$" +++ m +++ "$" +++ s +++ "$" +++ ofchars t).
  { rewrite <- (ofchars_chars ("$" +++ m +++ "$" +++ s +++ "$" +++ ofchars t)). f_equal. rewrite !chars_app, chars_ofchars, <- !app_assoc. reflexivity. }
  rewrite X. split.
  - intros (d & t' & A & L' & D' & ->). rewrite (apr1_fun _ _ _ _ _ A (final_apr1 _ _ _)) in D'. rewrite (digits_inj _ _ D' _ D) by congruence. reflexivity.
  - intros ->. eexists _, t. split; [apply final_apr1|]. auto.
Qed.
End Md5.

(** ** md5crypt *)
Lemma split_dollar s l : l <> [] -> (split s "$" = l <-> s = joinS "$" l /\ Forall (fun p => ~ In "$"%char (chars p)) l).
Proof.
  intro N. split.
  - intros <-. split.
    + symmetry. apply splitN_join; discriminate.
    + pose proof (split_pieces (chars "$") (chars s) ltac:(discriminate) 0 [] (or_introl eq_refl)) as P.
      apply Forall_forall. intros p Ip X. apply in_split in X. destruct X as (a & b & X). refine (P _ p Ip (length a) _); [cbn; lia|]. exists a, b. split; [exact X|reflexivity].
  - intros [-> F]. unfold split, splitN. cbn [Z.eqb Z.ltb Z.compare]. change (chars "$") with ["$"%char].
    change "$" with (schr "$"). rewrite (split_char "$" l [] N F). destruct l as [|x r]; [congruence|]. cbn [rev app]. now rewrite ofchars_chars.
Qed.
Lemma bool_inj b b' : OVal (VBool b) = OVal (VBool b') -> b = b'.
Proof. congruence. Qed.
Opaque md5Crypt.
Definition noDollar (s : string) : Prop := ~ In "$"%char (chars s).
Lemma joined m s t : joinS "$" [""; m; s; t] = "$" +++ m +++ "$" +++ s +++ "$" +++ t.
Proof. reflexivity. Qed.
Lemma digits_no_dollar l z : base64digits l z -> ~ In "$"%char l.
Proof. induction 1 as [|c d l z D H IH]; [tauto|]. intros [->|I]; [now apply digit64_not_dollar in D|auto]. Qed.

Section Thms.
Variable md5 : list ascii -> list ascii.
Hypothesis md5_len : forall t, length (md5 t) = 16%nat.

(** md5crypt gives a password entry with the magic "apr1" and a salt of 8 characters *)
Theorem C59_md5crypt : forall pw draws, (8 <= length draws)%nat ->
  exists salt h, func_md5crypt md5 draws [VStr pw] = OVal (VStr h) /\ entry md5 pw "apr1" salt h /\
    String.length salt = 8%nat /\ noDollar salt.
Proof.
  intros pw draws L. exists (ofchars (generateSALT (firstn 8 draws))). eexists. split; [reflexivity|]. split; [|split].
  - apply md5Crypt_entry; [exact md5_len|]. now rewrite chars_ofchars.
  - rewrite <- chars_len, chars_ofchars. unfold generateSALT. rewrite map_length, firstn_length. lia.
  - unfold noDollar, generateSALT. rewrite chars_ofchars, in_map_iff. intros (r & E & _).
    pose proof (digit64_at (r mod 64) ltac:(apply Z.mod_pos_bound; lia)) as D. rewrite E in D. now apply digit64_not_dollar in D.
Qed.
(** md5crypt_check accepts exactly the entries of the password *)
Theorem C59_check : forall pw h,
  func_md5crypt_check md5 [VStr pw; VStr h] = OVal (VBool true) <-> exists magic salt, noDollar magic /\ noDollar salt /\ entry md5 pw magic salt h.
Proof.
  intros pw h. cbn [func_md5crypt_check]. split.
  - destruct (split h "$") as [|x [|m [|s [|t [|]]]]] eqn:E; try discriminate. apply split_dollar in E; [|discriminate]. destruct E as [E F].
    inversion F as [|? ? _ F1]; subst. inversion F1 as [|? ? Fm F2]; subst. inversion F2 as [|? ? Fs F3]; subst.
    intro X. apply bool_inj in X. apply String.eqb_eq in X. exists m, s. split; [exact Fm|]. split; [exact Fs|]. apply md5Crypt_entry; [exact md5_len|]. now symmetry.
  - intros (m & s & Fm & Fs & En). pose proof En as (d & t & A & L & D & Eh). rewrite <- joined in Eh.
    rewrite (proj2 (split_dollar h [""; m; s; ofchars t] ltac:(discriminate))).
    + apply md5Crypt_entry in En; [|exact md5_len]. rewrite <- En, String.eqb_refl. reflexivity.
    + split; [exact Eh|]. repeat apply Forall_cons; try apply Forall_nil; [cbn; tauto|exact Fm|exact Fs|]. rewrite chars_ofchars. now apply digits_no_dollar in D.
Qed.
(** the check of a password with its own entry succeeds, whatever the salt *)
Theorem C59_check_own : forall pw draws, (8 <= length draws)%nat ->
  exists h, func_md5crypt md5 draws [VStr pw] = OVal (VStr h) /\ func_md5crypt_check md5 [VStr pw; VStr h] = OVal (VBool true).
Proof.
  intros pw draws L. destruct (C59_md5crypt pw draws L) as (s & h & E & En & _ & Ns). exists h. split; [exact E|]. apply C59_check. exists "apr1", s.
  split; [unfold noDollar; cbn; intuition discriminate|]. auto.
Qed.
(** another password is accepted exactly if it has the same digest: no part of the digest is lost *)
Theorem C59_other_password : forall pw pw' magic salt h d d', noDollar magic -> noDollar salt -> entry md5 pw magic salt h ->
  apr1 md5 (chars pw) (chars salt) (chars ("$" +++ magic +++ "$")) d -> apr1 md5 (chars pw') (chars salt) (chars ("$" +++ magic +++ "$")) d' ->
  (func_md5crypt_check md5 [VStr pw'; VStr h] = OVal (VBool true) <-> d = d').
Proof.
  intros pw pw' m s h d d' Nm Ns (d0 & t & A0 & L & D & Eh) A A'. rewrite (apr1_fun _ md5_len _ _ _ _ _ A0 A) in D. rewrite C59_check. split.
  - intros (m' & s' & Nm' & Ns' & (d1 & t' & A1 & L' & D' & Eh')).
    assert (E : [""; m; s; ofchars t] = [""; m'; s'; ofchars t']).
    { transitivity (split h "$"); [symmetry|]; apply split_dollar; try discriminate; (split; [assumption|]);
        repeat apply Forall_cons; try apply Forall_nil; try assumption; try (cbn; tauto); rewrite chars_ofchars; eapply digits_no_dollar; eassumption. }
    injection E as <- <- Et. assert (Et' : t = t') by (rewrite <- (chars_ofchars t), <- (chars_ofchars t'); congruence). subst t'.
    rewrite (apr1_fun _ md5_len _ _ _ _ _ A1 A') in D'. pose proof (digits_fun _ _ D _ D') as Ed.
    apply written_inj; [eapply apr1_len; eauto|eapply apr1_len; eauto|]. apply bytesNum_inj; [reflexivity|exact Ed].
  - intros <-. exists m, s. split; [exact Nm|]. split; [exact Ns|]. exists d, t. auto.
Qed.
(** a text with another number of "$" is reported as error, every other one is checked *)
Theorem C59_check_error : forall pw h,
  (func_md5crypt_check md5 [VStr pw; VStr h] = OErr <-> count_occ ascii_dec (chars h) "$"%char <> 3%nat) /\
  (func_md5crypt_check md5 [VStr pw; VStr h] <> OErr -> exists b, func_md5crypt_check md5 [VStr pw; VStr h] = OVal (VBool b)).
Proof.
  intros pw h.
  assert (C : forall l, Forall (fun p => ~ In "$"%char (chars p)) l -> l <> [] -> S (count_occ ascii_dec (chars (joinS "$" l)) "$"%char) = length l).
  { induction l as [|x l IH]; intros F N; [congruence|]. inversion F as [|? ? F1 F2]; subst. destruct l as [|y l].
    - cbn [joinS length]. now rewrite (proj1 (count_occ_not_In ascii_dec _ _) F1).
    - rewrite join_cons by discriminate. rewrite !chars_app, !count_occ_app. rewrite (proj1 (count_occ_not_In ascii_dec _ _) F1). change (length (x :: y :: l)) with (S (length (y :: l))). rewrite <- (IH F2 ltac:(discriminate)). reflexivity. }
  assert (N : split h "$" <> []) by apply split_aux_ne.
  pose proof (proj1 (split_dollar h _ N) eq_refl) as [E F]. specialize (C _ F N). rewrite <- E in C. cbn [func_md5crypt_check].
  destruct (split h "$") as [|x [|m [|s [|t [|]]]]]; cbn [length] in C; try congruence;
    (split; [split; [intros; lia || discriminate|intros; reflexivity || lia]|intro Y; try congruence; eauto]).
Qed.

(** ** hash and md5 *)
Variable sum : string -> list ascii -> list ascii.
Definition modes : list string := ["md5"; "sha1"; "sha224"; "sha256"; "sha384"; "sha512"; "sha512/224"; "sha512/256"].
Theorem C59_hash : forall s m, In m modes ->
  exists t, func_hash sum [VStr s; VStr m] = OVal (VStr t) /\ hexText (sum m (chars s)) (chars t).
Proof.
  intros s m I. exists (hex (sum m (chars s))). split.
  - cbn in I. repeat (destruct I as [<-|I]; [reflexivity|]). destruct I.
  - unfold hex. rewrite chars_ofchars. apply hexEnc_text.
Qed.
(** so the results agree exactly if the digests agree *)
Theorem C59_hash_faithful : forall s s' m, In m modes ->
  (func_hash sum [VStr s; VStr m] = func_hash sum [VStr s'; VStr m] <-> sum m (chars s) = sum m (chars s')).
Proof.
  intros s s' m I. assert (E : forall x, func_hash sum [VStr x; VStr m] = OVal (VStr (hex (sum m (chars x))))).
  { intro x. cbn in I. repeat (destruct I as [<-|I]; [reflexivity|]). destruct I. }
  rewrite !E. split; [|now intros ->]. intro X. injection X as X. unfold hex in X.
  assert (Y : hexEnc (sum m (chars s)) = hexEnc (sum m (chars s'))) by (rewrite <- (chars_ofchars (hexEnc (sum m (chars s)))), X; apply chars_ofchars).
  rewrite <- (hexDec_enc (sum m (chars s))), Y. apply hexDec_enc.
Qed.
Theorem C59_hash_default : forall s, func_hash sum [VStr s] = func_hash sum [VStr s; VStr "sha256"] /\ func_md5 sum [VStr s] = func_hash sum [VStr s; VStr "md5"].
Proof. intro s. split; reflexivity. Qed.
Theorem C59_hash_mode : forall s m, func_hash sum [VStr s; VStr m] = OErr <-> ~ In m modes /\ m <> "md4".
Proof.
  intros s m. cbn [func_hash]. unfold hashBytes. destruct (String.eqb_spec m "md4") as [->|N]; [split; [discriminate|intros [_ X]; congruence]|].
  change ["md5"; "sha1"; "sha224"; "sha256"; "sha384"; "sha512"; "sha512/224"; "sha512/256"] with modes.
  destruct (existsb (String.eqb m) modes) eqn:E.
  - apply existsb_exists in E. destruct E as (x & I & Ex). apply String.eqb_eq in Ex. subst x. split; [discriminate|tauto].
  - split; [intros _; split; [|exact N]|reflexivity]. intro I. assert (T : existsb (String.eqb m) modes = true) by (apply existsb_exists; exists m; split; [exact I|apply String.eqb_refl]). congruence.
Qed.
(** with "md4" the result is no digest: it begins with the text itself, which can be read from it *)
Theorem C59_md4_refuted : forall s, exists t, func_hash sum [VStr s; VStr "md4"] = OVal (VStr t) /\ hexText (chars s ++ sum "md4" []) (chars t) /\
  firstn (length (chars s)) (hexDec (chars t)) = chars s.
Proof.
  intro s. exists (hex (chars s ++ sum "md4" [])). split; [reflexivity|]. unfold hex. rewrite chars_ofchars. split; [apply hexEnc_text|].
  rewrite hexDec_enc. rewrite firstn_app, firstn_all, Nat.sub_diag, firstn_O. apply app_nil_r.
Qed.
End Thms.

(** ** examples *)
Transparent md5Crypt.
(** a digest function: the first 16 bytes of the text and a filling *)
Definition toy (t : list ascii) : list ascii := firstn 16 (t ++ repeat "a"%char 16).
Example ex_toy : forall t, length (toy t) = 16%nat.
Proof. intro t. unfold toy. rewrite firstn_length, app_length, repeat_length. lia. Qed.
Example ex_crypt : func_md5crypt toy [1; 70; 5; 0; 63; 12; 13; 14] [VStr "secret"] = OVal (VStr "$apr1$/43.zABC$nBrQZJKNXBqMm7bQoJKNo/").
Proof. vm_compute. reflexivity. Qed.
Example ex_check : func_md5crypt_check toy [VStr "secret"; VStr "$apr1$/43.zABC$nBrQZJKNXBqMm7bQoJKNo/"] = OVal (VBool true)
  /\ func_md5crypt_check toy [VStr "Secret"; VStr "$apr1$/43.zABC$nBrQZJKNXBqMm7bQoJKNo/"] = OVal (VBool false)
  /\ func_md5crypt_check toy [VStr "secret"; VStr "apr1$/43.zABC"] = OErr.
Proof. vm_compute. repeat split. Qed.

Print Assumptions C59_md5crypt.
Print Assumptions C59_check.
Print Assumptions C59_check_own.
Print Assumptions C59_other_password.
Print Assumptions C59_check_error.
Print Assumptions C59_hash.
Print Assumptions C59_hash_faithful.
Print Assumptions C59_hash_default.
Print Assumptions C59_hash_mode.
Print Assumptions C59_md4_refuted.
