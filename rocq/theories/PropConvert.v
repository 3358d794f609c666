(** C58: conversions, numerals and rounding. *)
From Coq Require Import Lia QArith Floats.SpecFloat.
From Verif Require Import Core CoreFacts Str StrFacts DecSpec Comparison ListFns Arith ArithFacts Convert ConvertSpec PropCompare.
Import ListNotations.
Open Scope string_scope. Open Scope list_scope. Open Scope Z_scope.

(** ** numerals *)
Lemma digitChar_at d : 0 <= d < 36 -> digitAt (Z.to_nat d) (digitChar d).
Proof.
  intro R. assert (T : forallb (fun i => match nth_error (chars "0123456789abcdefghijklmnopqrstuvwxyz") i with Some c => Ascii.eqb c (digitChar (Z.of_nat i)) | None => false end) (seq 0 36) = true) by (vm_compute; reflexivity).
  rewrite forallb_forall in T. specialize (T (Z.to_nat d)). rewrite Z2Nat.id in T by lia. assert (I : In (Z.to_nat d) (seq 0 36)) by (apply in_seq; lia). apply T in I.
  unfold digitAt. destruct (nth_error _ _) as [c|]; [|discriminate]. apply Ascii.eqb_eq in I. congruence.
Qed.
Lemma digit_inj d d' c : digitAt d c -> digitAt d' c -> d = d'.
Proof.
  unfold digitAt. intros H H'. assert (ND : NoDup (chars "0123456789abcdefghijklmnopqrstuvwxyz")).
  { cbn. repeat constructor; cbn; intuition discriminate. }
  rewrite NoDup_nth_error in ND. apply ND; [|congruence]. apply nth_error_Some. congruence.
Qed.
Lemma digit_zero c : digitAt 0 c -> c = "0"%char.
Proof. unfold digitAt. cbn. congruence. Qed.
Lemma inBase_nonneg b s z : 2 <= b -> inBase b s z -> 0 <= z.
Proof. intros B. induction 1; nia. Qed.
Lemma inBase_head b s z : inBase b s z -> exists c r, s = String c r.
Proof. destruct 1 as [d c|s z d c H]; [eauto|]. destruct s; cbn; eauto. Qed.
Lemma inBase_zero b s z : 2 <= b -> inBase b s z -> z = 0 -> exists r, s = String "0" r.
Proof.
  intro B. induction 1 as [d c D L|s z d c H IH D L]; intro E.
  - replace d with 0%nat in D by lia. apply digit_zero in D. subst. eauto.
  - pose proof (inBase_nonneg _ _ _ B H). destruct IH as [r ->]; [nia|]. cbn. eauto.
Qed.
Lemma short_prefix s c : s <> "" -> short (s +++ String c "") -> forall r, s <> String "0" r.
Proof. intros N S r ->. specialize (S (r +++ String c "") eq_refl). destruct r; discriminate S. Qed.
Lemma numerals_unique b s z : 2 <= b -> inBase b s z -> forall s' z', inBase b s' z' -> short s -> short s' -> z = z' -> s = s'.
Proof.
  intro B. induction 1 as [d c D L|s z d c H IH D L]; intros s' z' H' S S' E; destruct H' as [d' c' D' L'|s' z' d' c' H' D' L'].
  - replace d' with d in D' by lia. unfold digitAt in *. congruence.
  - pose proof (inBase_nonneg _ _ _ B H'). assert (Z0 : z' = 0) by nia. destruct (inBase_zero _ _ _ B H' Z0) as [r ->]. exfalso.
    eapply short_prefix; [|exact S'|reflexivity]. discriminate.
  - pose proof (inBase_nonneg _ _ _ B H). assert (Z0 : z = 0) by nia. destruct (inBase_zero _ _ _ B H Z0) as [r ->]. exfalso.
    eapply short_prefix; [|exact S|reflexivity]. discriminate.
  - pose proof (inBase_nonneg _ _ _ B H). pose proof (inBase_nonneg _ _ _ B H').
    assert (z = z' /\ Z.of_nat d = Z.of_nat d') as [-> Ed] by (apply (Z.div_mod_unique b); lia). replace d' with d in D' by lia. assert (c' = c) by (unfold digitAt in *; congruence). subst c'.
    f_equal. destruct (inBase_head _ _ _ H) as (x & r & E1), (inBase_head _ _ _ H') as (x' & r' & E2).
    apply (IH s' z'); [exact H'| | |reflexivity]; intros q ->; exfalso.
    + eapply short_prefix; [|exact S|reflexivity]. discriminate.
    + eapply short_prefix; [|exact S'|reflexivity]. discriminate.
Qed.
Lemma formatLoop_spec b : 2 <= b <= 36 -> forall fuel z acc, 0 <= z < b ^ Z.of_nat fuel -> (1 <= fuel)%nat ->
  exists s, formatLoop fuel b z acc = s +++ acc /\ inBase b s z /\ (0 < z -> forall r, s <> String "0" r) /\ (z = 0 -> s = "0").
Proof.
  intro B. induction fuel as [|fuel IH]; intros z acc R F; [lia|]. cbn [formatLoop].
  pose proof (Z.mod_pos_bound z b ltac:(lia)) as M. pose proof (digitChar_at (z mod b) ltac:(lia)) as D.
  pose proof (Z.div_mod z b ltac:(lia)) as DM.
  destruct (Z.eqb_spec (z / b) 0) as [E|N].
  - exists (String (digitChar (z mod b)) ""). split; [reflexivity|]. rewrite E in DM. assert (Ez : z = z mod b) by lia. split; [|split].
    + rewrite Ez at 2. pose proof (B_one b _ _ D) as X. rewrite Z2Nat.id in X by lia. apply X. lia.
    + intros P r X. injection X as X _. rewrite X in D. assert (Z.to_nat (z mod b) = 0%nat) by (eapply digit_inj; [exact D|reflexivity]). lia.
    + intros ->. reflexivity.
  - assert (P : 0 < z / b) by (pose proof (Z.div_pos z b); lia).
    destruct fuel as [|fuel].
    { exfalso. cbn in R. rewrite Z.mul_1_r in R. rewrite Z.div_small in N; lia. }
    destruct (IH (z / b) (String (digitChar (z mod b)) acc)) as (s & -> & H & Z1 & _); [|lia|].
    { split; [lia|]. apply Z.div_lt_upper_bound; [lia|]. rewrite <- Z.pow_succ_r by lia. rewrite <- Nat2Z.inj_succ. lia. }
    exists (s +++ String (digitChar (z mod b)) ""). split; [now rewrite sapp_assoc|]. split; [|split].
    + rewrite DM at 2. pose proof (B_more b _ _ _ _ H D) as X. rewrite Z2Nat.id in X by lia. apply X. lia.
    + intros _ r X. destruct (inBase_head _ _ _ H) as (c & q & ->). injection X as -> _. now apply (Z1 P q).
    + nia.
Qed.
Lemma formatNat_spec b z : 2 <= b <= 36 -> 0 <= z -> inBase b (formatNat b z) z /\ short (formatNat b z).
Proof.
  intros B P. unfold formatNat. destruct (formatLoop_spec b B (S (Z.to_nat (Z.log2 z))) z "") as (s & E & H & S1 & S0).
  - split; [exact P|]. rewrite Nat2Z.inj_succ, Z2Nat.id by apply Z.log2_nonneg. destruct (Z.eq_dec z 0) as [->|N]; [cbn; lia|].
    apply Z.lt_le_trans with (2 ^ Z.succ (Z.log2 z)); [apply Z.log2_spec; lia|]. apply Z.pow_le_mono_l. lia.
  - lia.
  - rewrite E, sapp_nil_r. split; [exact H|]. intros r Er. destruct (Z.eq_dec z 0) as [Z0|N].
    + rewrite (S0 Z0) in Er. congruence.
    + exfalso. eapply S1; [lia|exact Er].
Qed.
Lemma formatInt_numeral z b : 2 <= b <= 36 -> numeral b z (formatInt z b).
Proof.
  intro B. unfold formatInt. destruct (Z.ltb_spec z 0) as [L|L].
  - right. split; [exact L|]. eexists. split; [reflexivity|]. apply formatNat_spec; lia.
  - left. split; [exact L|]. apply formatNat_spec; lia.
Qed.
Lemma numeral_unique b z s s' : 2 <= b -> numeral b z s -> numeral b z s' -> s = s'.
Proof.
  intros B [(L & H & S)|(L & r & -> & H & S)] [(L' & H' & S')|(L' & r' & -> & H' & S')]; try lia.
  - eapply numerals_unique; eauto.
  - f_equal. eapply numerals_unique; eauto.
Qed.
Lemma digit_decimal d c : (d < 10)%nat -> digitAt d c -> digit c (Z.of_nat d).
Proof. intros L D. unfold digitAt in D. do 10 (destruct d as [|d]; [cbn in D; injection D as <-; constructor|]). lia. Qed.
Lemma inBase_decimal s z : inBase 10 s z -> decimal s z.
Proof. induction 1 as [d c D L|s z d c H IH D L]; constructor; try assumption; apply digit_decimal; try assumption; lia. Qed.

(** ** rounding *)
Lemma quotDown_spec n e : roundsDown (if (0 <=? e)%Z then inject_Z (n * 2 ^ e) else (n # Z.to_pos (2 ^ (- e)))) (quotDown n e).
Proof.
  unfold roundsDown, quotDown. destruct (Z.leb_spec 0 e) as [L|L].
  - split; [apply Qle_refl|]. rewrite <- Zlt_Qlt. lia.
  - set (k := 2 ^ (- e)). assert (K : 0 < k) by (apply Z.pow_pos_nonneg; lia).
    pose proof (Z.div_mod n k ltac:(lia)) as DM. pose proof (Z.mod_pos_bound n k K) as M.
    unfold Qle, Qlt, inject_Z. cbn [Qnum Qden]. rewrite Z2Pos.id by exact K. nia.
Qed.

Lemma fval_finite s m e v : fval (S754_finite s m e) v -> v = (if (0 <=? e)%Z then inject_Z (fsign s m * 2 ^ e) else (fsign s m # Z.to_pos (2 ^ (- e)))).
Proof. exact (fun x => x). Qed.
Lemma neg_val n e : (if (0 <=? e)%Z then inject_Z (- n * 2 ^ e) else (- n # Z.to_pos (2 ^ (- e)))) = (- (if (0 <=? e)%Z then inject_Z (n * 2 ^ e) else (n # Z.to_pos (2 ^ (- e)))))%Q.
Proof. destruct (0 <=? e)%Z; unfold Qopp, inject_Z; cbn [Qnum Qden]; f_equal; ring. Qed.
Lemma down_neg v z : roundsDown (- v) z -> roundsUp v (- z).
Proof.
  unfold roundsDown, roundsUp, Qle, Qlt, inject_Z, Qopp. destruct v as [n d]. cbn [Qnum Qden]. intros [A B]. split; nia.
Qed.
Lemma fFloor_spec f v z : fval f v -> fFloor f = Some z -> roundsDown v z.
Proof.
  destruct f as [s|s| |s m e]; cbn [fFloor]; try discriminate; intros V E; injection E as <-.
  - cbn in V. subst v. split; [apply Qle_refl|reflexivity].
  - rewrite (fval_finite _ _ _ _ V). apply quotDown_spec.
Qed.
Lemma fCeil_spec f v z : fval f v -> fCeil f = Some z -> roundsUp v z.
Proof.
  destruct f as [s|s| |s m e]; cbn [fCeil]; try discriminate; intros V E; injection E as <-.
  - cbn in V. subst v. split; [reflexivity|apply Qle_refl].
  - apply down_neg. rewrite (fval_finite _ _ _ _ V), <- neg_val. apply quotDown_spec.
Qed.
Lemma val_sign s m e v : fval (S754_finite s m e) v -> if s then (v < 0)%Q else (0 < v)%Q.
Proof.
  intro V. rewrite (fval_finite _ _ _ _ V). clear V. destruct (Z.leb_spec 0 e) as [L|L].
  - assert (0 < 2 ^ e) by (apply Z.pow_pos_nonneg; lia). destruct s; unfold Qlt, inject_Z, fsign; cbn [Qnum Qden]; nia.
  - destruct s; unfold Qlt, fsign; cbn [Qnum Qden]; lia.
Qed.
Lemma fTrunc_spec f v z : fval f v -> fTrunc f = Some z -> truncates v z.
Proof.
  intros V E. destruct f as [s|s| |s m e]; cbn [fTrunc] in E; try discriminate; injection E as <-.
  - cbn in V. subst v. split; intros _; split; try apply Qle_refl; reflexivity.
  - pose proof (val_sign _ _ _ _ V) as Sg. destruct s; split; intro H.
    + exfalso. exact (Qlt_not_le _ _ Sg H).
    + apply down_neg. rewrite (fval_finite _ _ _ _ V), <- neg_val. apply (quotDown_spec (Zpos m)).
    + rewrite (fval_finite _ _ _ _ V). apply (quotDown_spec (Zpos m)).
    + exfalso. exact (Qlt_not_le _ _ Sg H).
Qed.
(** the magnitude *)
Lemma half_lo q n d : (inject_Z q - (1 # 2) <= n # d)%Q <-> 2 * q * Zpos d - Zpos d <= 2 * n.
Proof. unfold Qle, Qminus, Qplus, Qopp, inject_Z. cbn [Qnum Qden]. change (Zpos (1 * 2)) with 2. split; intro; lia. Qed.
Lemma half_hi q n d : (n # d <= inject_Z q + (1 # 2))%Q <-> 2 * n <= 2 * q * Zpos d + Zpos d.
Proof. unfold Qle, Qminus, Qplus, Qopp, inject_Z. cbn [Qnum Qden]. change (Zpos (1 * 2)) with 2. split; intro; lia. Qed.
Lemma half_lo_eq q n d : (n # d == inject_Z q - (1 # 2))%Q <-> 2 * q * Zpos d - Zpos d = 2 * n.
Proof. unfold Qeq, Qminus, Qplus, Qopp, inject_Z. cbn [Qnum Qden]. change (Zpos (1 * 2)) with 2. split; intro; lia. Qed.
Lemma half_hi_eq q n d : (n # d == inject_Z q + (1 # 2))%Q <-> 2 * n = 2 * q * Zpos d + Zpos d.
Proof. unfold Qeq, Qminus, Qplus, Qopp, inject_Z. cbn [Qnum Qden]. change (Zpos (1 * 2)) with 2. split; intro; lia. Qed.
Definition magnitude (m e : Z) : Q := if (0 <=? e)%Z then inject_Z (m * 2 ^ e) else (m # Z.to_pos (2 ^ (- e))).
Lemma quotRound_spec m e : 0 < m -> nearest (magnitude m e) (quotRound m e) /\ ~ (magnitude m e == inject_Z (quotRound m e) + (1 # 2))%Q.
Proof.
  intros P. unfold magnitude, nearest, quotRound. destruct (Z.leb_spec 0 e) as [L|L].
  - generalize (m * 2 ^ e). intro w. unfold inject_Z at 2 3 5. rewrite half_lo, half_hi, half_hi_eq. lia.
  - rewrite half_lo, half_hi, half_hi_eq. assert (K : 0 < 2 ^ (- e)) by (apply Z.pow_pos_nonneg; lia). revert K. generalize (2 ^ (- e)). intros k K.
    rewrite Z2Pos.id by exact K.
    pose proof (Z.div_mod (2 * m + k) (2 * k) ltac:(lia)) as DM. pose proof (Z.mod_pos_bound (2 * m + k) (2 * k) ltac:(lia)) as M.
    revert DM M. generalize ((2 * m + k) / (2 * k)) ((2 * m + k) mod (2 * k)). intros q r DM M. lia.
Qed.
Lemma quotEven_spec m e : 0 < m -> roundsHalfEven (magnitude m e) (quotEven m e).
Proof.
  intros P. unfold magnitude, roundsHalfEven, tie, nearest, quotEven. destruct (Z.leb_spec 0 e) as [L|L].
  - generalize (m * 2 ^ e). intro w. unfold inject_Z at 2 3 5 7. rewrite half_lo, half_hi, half_hi_eq, half_lo_eq. split; [lia|]. intros [H|H]; exfalso; lia.
  - rewrite half_lo, half_hi, half_hi_eq, half_lo_eq. assert (K : 0 < 2 ^ (- e)) by (apply Z.pow_pos_nonneg; lia). revert K. generalize (2 ^ (- e)). intros k K.
    rewrite Z2Pos.id by exact K.
    pose proof (Z.div_mod (2 * m + k) (2 * k) ltac:(lia)) as DM. pose proof (Z.mod_pos_bound (2 * m + k) (2 * k) ltac:(lia)) as M.
    revert DM M. generalize ((2 * m + k) / (2 * k)) ((2 * m + k) mod (2 * k)). intros q r DM M. cbv zeta.
    destruct (Z.eqb_spec r 0) as [E0|N0]; cbn [andb].
    + destruct (Z.odd q) eqn:Od.
      * split; [lia|]. intros _. replace (q - 1) with (Z.pred q) by lia. rewrite Z.even_pred. exact Od.
      * split; [lia|]. intros _. rewrite <- Z.negb_odd, Od. reflexivity.
    + split; [lia|]. intros [H|H]; exfalso; lia.
Qed.
Lemma near_neg v z : nearest v z -> nearest (- v) (- z).
Proof. unfold nearest. destruct v as [n d]. change (- (n # d))%Q with (- n # d)%Q. rewrite !half_lo, !half_hi. lia. Qed.
Lemma half_neg v z : ((- v == inject_Z (- z) + (1 # 2)) <-> (v == inject_Z z - (1 # 2)))%Q /\ ((- v == inject_Z (- z) - (1 # 2)) <-> (v == inject_Z z + (1 # 2)))%Q.
Proof. destruct v as [n d]. change (- (n # d))%Q with (- n # d)%Q. rewrite !half_lo_eq, !half_hi_eq. split; split; lia. Qed.
Lemma fRound_spec f v z : fval f v -> fRound f = Some z -> roundsHalfAway v z.
Proof.
  intros V E. destruct f as [s|s| |s m e]; cbn [fRound] in E; try discriminate; injection E as <-.
  - cbn in V. subst v. split; [split; discriminate|]. split; intro H; discriminate H.
  - pose proof (val_sign _ _ _ _ V) as Sg. pose proof (quotRound_spec (Zpos m) e ltac:(lia)) as [N T]. set (w := magnitude (Zpos m) e) in *.
    destruct s.
    + assert (Ew : v = (- w)%Q) by (rewrite (fval_finite _ _ _ _ V); apply (neg_val (Zpos m))). subst v. split; [now apply near_neg|].
      split; intro H; [exact Sg|]. exfalso. apply T. now apply half_neg.
    + assert (Ew : v = w) by exact V. subst v. split; [exact N|]. split; intro H; [contradiction|exact Sg].
Qed.
Lemma fEven_spec f v z : fval f v -> fEven f = Some z -> roundsHalfEven v z.
Proof.
  intros V E. destruct f as [s|s| |s m e]; cbn [fEven] in E; try discriminate; injection E as <-.
  - cbn in V. subst v. split; [split; discriminate|]. intros [H|H]; discriminate H.
  - pose proof (quotEven_spec (Zpos m) e ltac:(lia)) as [N T]. set (w := magnitude (Zpos m) e) in *.
    destruct s.
    + assert (Ew : v = (- w)%Q) by (rewrite (fval_finite _ _ _ _ V); apply (neg_val (Zpos m))). subst v. split; [now apply near_neg|].
      intro H. rewrite Z.even_opp. apply T. destruct (half_neg w (quotEven (Zpos m) e)) as [H1 H2]. destruct H as [H|H]; [right; now apply H2|left; now apply H1].
    + assert (Ew : v = w) by exact V. subst v. split; [exact N|exact T].
Qed.

(** ** the theorems *)
Section Thms.
Variable showFloat : spec_float -> string.
Variable readFloat : string -> option spec_float.
Variable outOfRange : spec_float -> Z.
Notation func_string := (func_string showFloat).
Notation func_integer := (func_integer outOfRange).
Notation func_rounding := (func_rounding outOfRange).
Notation func_float := (func_float readFloat).

(** string(i) and string(i, base) give exactly the numeral of the number, for the bases 2 to 36 *)
Theorem C58_string : forall z s, func_string [VInt z] = OVal (VStr s) <-> numeral 10 z s.
Proof.
  intros z s. cbn. split.
  - intro E. injection E as <-. now apply formatInt_numeral.
  - intro N. do 2 f_equal. eapply numeral_unique; [|now apply formatInt_numeral|exact N]. lia.
Qed.
Theorem C58_string_base : forall z b r,
  func_string [VInt z; VInt b] = r <-> (2 <= b <= 36 /\ exists s, numeral b z s /\ r = OVal (VStr s)) \/ (~ (2 <= b <= 36) /\ r = OErr).
Proof.
  intros z b r. cbn [Convert.func_string]. rewrite !Z.gtb_ltb.
  destruct (Z.ltb_spec b 2) as [L|L]; cbn [orb]; [|destruct (Z.ltb_spec 36 b) as [H|H]].
  - split; [intros <-; right; split; [lia|reflexivity]|]. intros [[R _]|[_ ->]]; [lia|reflexivity].
  - split; [intros <-; right; split; [lia|reflexivity]|]. intros [[R _]|[_ ->]]; [lia|reflexivity].
  - split.
    + intros <-. left. split; [lia|]. eexists. split; [apply formatInt_numeral; lia|reflexivity].
    + intros [[R (s & N & ->)]|[R _]]; [|lia]. do 2 f_equal. eapply numeral_unique; [|apply formatInt_numeral; lia|exact N]. lia.
Qed.

(** integer(text) accepts exactly the decimal numbers with optional sign that fit into 64 bit *)
Lemma signed_lit s z : signed s z <-> signed_literal s z.
Proof.
  unfold signed, signed_literal, literal. split.
  - intros [H|[H|(r & E & H)]]; [left; left; exact H|right; exact H|]. left. right. exists r, (- z). split; [exact E|]. split; [exact H|lia].
  - intros [[H|(r & n & E & H & ->)]|H]; auto. right. right. exists r. rewrite Z.opp_involutive. auto.
Qed.
Theorem C58_integer_text : forall s r,
  func_integer [VStr s] = r <-> (exists z, signed s z /\ in64 z /\ r = OVal (VInt z)) \/ ((forall z, signed s z -> ~ in64 z) /\ r = OErr).
Proof.
  intros s r. cbn. destruct (parseInt s) as [z|] eqn:E.
  - apply parseInt_literal in E. destruct E as [E R]. apply signed_lit in E. split.
    + intros <-. left. eauto.
    + intros [(y & S & I & ->)|[N _]]; [|now apply N in E].
      apply signed_lit in S, E. pose proof (proj2 (parseInt_literal _ _) (conj S I)) as P1. pose proof (proj2 (parseInt_literal _ _) (conj E R)) as P2. congruence.
  - split.
    + intros <-. right. split; [|reflexivity]. intros z S I. apply signed_lit in S. pose proof (proj2 (parseInt_literal _ _) (conj S I)). congruence.
    + intros [(y & S & I & ->)|[_ ->]]; [|reflexivity]. apply signed_lit in S. pose proof (proj2 (parseInt_literal _ _) (conj S I)). congruence.
Qed.
(** integer(string(i)) is i *)
Theorem C58_roundtrip : forall z, in64 z -> exists s, func_string [VInt z] = OVal (VStr s) /\ func_integer [VStr s] = OVal (VInt z).
Proof.
  intros z R. exists (formatInt z 10). split; [reflexivity|]. apply C58_integer_text. left. exists z. split; [|split; [exact R|reflexivity]].
  destruct (formatInt_numeral z 10 ltac:(lia)) as [(L & H & _)|(L & r & E & H & _)].
  - left. now apply inBase_decimal.
  - right. right. exists r. split; [exact E|]. now apply inBase_decimal.
Qed.

(** truth values *)
Theorem C58_bool_text : forall s r,
  func_bool [VStr s] = r <-> (s = "" /\ r = OVal (VBool false)) \/ (exists b, boolWord s b /\ r = OVal (VBool b)) \/ (s <> "" /\ (forall b, ~ boolWord s b) /\ r = OErr).
Proof.
  intros s r.
  assert (P : forall b, parseBool s = Some b <-> boolWord s b).
  { unfold parseBool, boolWord. intro b.
    assert (T : existsb (String.eqb s) ["1"; "t"; "T"; "TRUE"; "true"; "True"] = true <-> In s ["1"; "t"; "T"; "TRUE"; "true"; "True"]).
    { rewrite existsb_exists. split; [intros (x & I & E); apply String.eqb_eq in E; congruence|intro I; exists s; split; [exact I|apply String.eqb_refl]]. }
    assert (F : existsb (String.eqb s) ["0"; "f"; "F"; "FALSE"; "false"; "False"] = true <-> In s ["0"; "f"; "F"; "FALSE"; "false"; "False"]).
    { rewrite existsb_exists. split; [intros (x & I & E); apply String.eqb_eq in E; congruence|intro I; exists s; split; [exact I|apply String.eqb_refl]]. }
    assert (D : In s ["1"; "t"; "T"; "TRUE"; "true"; "True"] -> In s ["0"; "f"; "F"; "FALSE"; "false"; "False"] -> False).
    { intros H H'. cbn in H. repeat (destruct H as [<-|H]; [cbn in H'; intuition discriminate|]). exact H. }
    destruct (existsb _ ["1"; "t"; "T"; "TRUE"; "true"; "True"]) eqn:ET.
    - pose proof (proj1 T eq_refl) as ET'. split; [intro X; injection X as <-; exact (proj1 T eq_refl)|]. intro X. destruct b; [reflexivity|]. exfalso. auto.
    - destruct (existsb _ ["0"; "f"; "F"; "FALSE"; "false"; "False"]) eqn:EF.
      + pose proof (proj1 F eq_refl) as EF'. split; [intro X; injection X as <-; exact EF'|]. intro X. destruct b; [|reflexivity]. exfalso. auto.
      + split; [discriminate|]. intro X. exfalso. destruct b; [apply T in X|apply F in X]; discriminate. }
  cbn [Convert.func_bool]. destruct (String.eqb_spec s "") as [->|N].
  - split; [intros <-; auto|]. intros [[_ ->]|[(b & W & _)|[X _]]]; [reflexivity| |congruence]. exfalso. apply P in W. discriminate W.
  - destruct (parseBool s) as [b|].
    + split; [intros <-; right; left; exists b; split; [apply P|]; reflexivity|].
      intros [[X _]|[(b' & W & ->)|(_ & X & _)]]; [contradiction| |exfalso; apply (X b), P; reflexivity]. apply P in W. now injection W as <-.
    + split; [intros <-; right; right; split; [exact N|split; [|reflexivity]]; intros b W; apply P in W; discriminate|].
      intros [[X _]|[(b' & W & ->)|(_ & _ & ->)]]; [contradiction| |reflexivity]. apply P in W. discriminate.
Qed.
Theorem C58_bool_roundtrip : forall b, exists s, func_string [VBool b] = OVal (VStr s) /\ func_bool [VStr s] = OVal (VBool b).
Proof. intros []; eexists; split; reflexivity. Qed.
Theorem C58_bool_number : forall z, func_bool [VInt z] = OVal (VBool true) <-> z <> 0.
Proof. intro z. cbn. destruct (Z.eqb_spec z 0); cbn; split; intro; try congruence. Qed.

(** floats become integers by cutting off the fraction; floor, ceil, round and roundtoeven round
    down, up, to the nearest with halves away from zero, and to the nearest with halves to even.
    All for results that fit into 64 bit *)
Lemma toInt64_in f z : in64 z -> toInt64 outOfRange f (Some z) = z.
Proof. intro R. unfold toInt64. now rewrite (proj2 (in64b_spec z) R). Qed.
Lemma down_unique v z z' : roundsDown v z -> roundsDown v z' -> z = z'.
Proof.
  intros [A B] [A' B']. assert (X : (inject_Z z < inject_Z (z' + 1))%Q) by (eapply Qle_lt_trans; eauto). assert (Y : (inject_Z z' < inject_Z (z + 1))%Q) by (eapply Qle_lt_trans; eauto).
  rewrite <- Zlt_Qlt in X, Y. lia.
Qed.
Lemma up_unique v z z' : roundsUp v z -> roundsUp v z' -> z = z'.
Proof.
  intros [A B] [A' B']. assert (X : (inject_Z (z - 1) < inject_Z z')%Q) by (eapply Qlt_le_trans; eauto). assert (Y : (inject_Z (z' - 1) < inject_Z z)%Q) by (eapply Qlt_le_trans; eauto).
  rewrite <- Zlt_Qlt in X, Y. lia.
Qed.
Lemma trunc_unique v z z' : truncates v z -> truncates v z' -> z = z'.
Proof.
  intros [A B] [A' B']. destruct (Qlt_le_dec v 0) as [L|L].
  - apply Qlt_le_weak in L. eapply up_unique; eauto.
  - eapply down_unique; eauto.
Qed.
Lemma near_two v z z' : nearest v z -> nearest v z' -> z < z' -> z' = z + 1 /\ (v == inject_Z z + (1 # 2))%Q /\ (v == inject_Z z' - (1 # 2))%Q.
Proof. unfold nearest. destruct v as [n d]. rewrite !half_lo, !half_hi, half_lo_eq, half_hi_eq. intros [A B] [A' B'] L. assert (z' = z + 1) by nia. subst z'. lia. Qed.
Lemma away_unique v z z' : roundsHalfAway v z -> roundsHalfAway v z' -> z = z'.
Proof.
  intros (N & A & B) (N' & A' & B'). destruct (Z.lt_trichotomy z z') as [L|[->|L]]; [exfalso|reflexivity|exfalso].
  - destruct (near_two _ _ _ N N' L) as (_ & H & H'). specialize (A H). specialize (B' H'). exact (Qlt_irrefl _ (Qlt_trans _ _ _ A B')).
  - destruct (near_two _ _ _ N' N L) as (_ & H & H'). specialize (A' H). specialize (B H'). exact (Qlt_irrefl _ (Qlt_trans _ _ _ A' B)).
Qed.
Lemma even_unique v z z' : roundsHalfEven v z -> roundsHalfEven v z' -> z = z'.
Proof.
  intros (N & A) (N' & A'). destruct (Z.lt_trichotomy z z') as [L|[->|L]]; [exfalso|reflexivity|exfalso].
  - destruct (near_two _ _ _ N N' L) as (-> & H & H'). specialize (A (or_intror H)). specialize (A' (or_introl H')). rewrite Z.even_add, A in A'. discriminate A'.
  - destruct (near_two _ _ _ N' N L) as (-> & H & H'). specialize (A' (or_intror H)). specialize (A (or_introl H')). rewrite Z.even_add, A' in A. discriminate A.
Qed.
Theorem C58_truncate : forall f v z, fval f v -> truncates v z -> in64 z -> func_integer [VFloat f] = OVal (VInt z).
Proof.
  intros f v z V T R. cbn. destruct (fTrunc f) as [y|] eqn:E; [|destruct f; cbn in V; solve [contradiction|discriminate E]].
  pose proof (trunc_unique _ _ _ (fTrunc_spec _ _ _ V E) T). subst y. now rewrite toInt64_in.
Qed.
Theorem C58_floor : forall f v z, fval f v -> roundsDown v z -> in64 z -> func_rounding fFloor [VFloat f] = OVal (VInt z).
Proof.
  intros f v z V T R. cbn. destruct (fFloor f) as [y|] eqn:E; [|destruct f; cbn in V; solve [contradiction|discriminate E]].
  pose proof (down_unique _ _ _ (fFloor_spec _ _ _ V E) T). subst y. now rewrite toInt64_in.
Qed.
Theorem C58_ceil : forall f v z, fval f v -> roundsUp v z -> in64 z -> func_rounding fCeil [VFloat f] = OVal (VInt z).
Proof.
  intros f v z V T R. cbn. destruct (fCeil f) as [y|] eqn:E; [|destruct f; cbn in V; solve [contradiction|discriminate E]].
  pose proof (up_unique _ _ _ (fCeil_spec _ _ _ V E) T). subst y. now rewrite toInt64_in.
Qed.
Theorem C58_round : forall f v z, fval f v -> roundsHalfAway v z -> in64 z -> func_rounding fRound [VFloat f] = OVal (VInt z).
Proof.
  intros f v z V T R. cbn. destruct (fRound f) as [y|] eqn:E; [|destruct f; cbn in V; solve [contradiction|discriminate E]].
  pose proof (away_unique _ _ _ (fRound_spec _ _ _ V E) T). subst y. now rewrite toInt64_in.
Qed.
Theorem C58_roundtoeven : forall f v z, fval f v -> roundsHalfEven v z -> in64 z -> func_rounding fEven [VFloat f] = OVal (VInt z).
Proof.
  intros f v z V T R. cbn. destruct (fEven f) as [y|] eqn:E; [|destruct f; cbn in V; solve [contradiction|discriminate E]].
  pose proof (even_unique _ _ _ (fEven_spec _ _ _ V E) T). subst y. now rewrite toInt64_in.
Qed.
(** each of the roundings exists, so that the preceding theorems speak about every finite float *)
Theorem C58_roundings_exist : forall f v, fval f v ->
  (exists z, truncates v z) /\ (exists z, roundsDown v z) /\ (exists z, roundsUp v z) /\ (exists z, roundsHalfAway v z) /\ (exists z, roundsHalfEven v z).
Proof.
  intros f v V. destruct f as [s|s| |s m e]; cbn in V; try contradiction.
  - assert (V' : fval (S754_zero s) v) by exact V. repeat split; eexists; solve [eapply fTrunc_spec; [exact V'|reflexivity]|eapply fFloor_spec; [exact V'|reflexivity]|eapply fCeil_spec; [exact V'|reflexivity]|eapply fRound_spec; [exact V'|reflexivity]|eapply fEven_spec; [exact V'|reflexivity]].
  - assert (V' : fval (S754_finite s m e) v) by exact V. repeat split; eexists; solve [eapply fTrunc_spec; [exact V'|reflexivity]|eapply fFloor_spec; [exact V'|reflexivity]|eapply fCeil_spec; [exact V'|reflexivity]|eapply fRound_spec; [exact V'|reflexivity]|eapply fEven_spec; [exact V'|reflexivity]].
Qed.

(** the result of integer(true) and of floor(true) is no operand of the arithmetic *)
Theorem C58_integer_of_bool_refuted :
  exists b r, func_integer [VBool b] = OVal r /\ func_rounding fFloor [VBool b] = OVal r /\ forall N, op_add N r (VInt 1) = None.
Proof. exists true. eexists. repeat split. Qed.

(** ** integers as floats: exact below 2^53 *)
Lemma digits_shift d m : Zpos (digits2_pos (shift_pos d m)) = Zpos (digits2_pos m) + Zpos d.
Proof.
  unfold shift_pos. induction d using Pos.peano_ind; [cbn; lia|]. rewrite Pos.iter_succ. cbn [digits2_pos]. lia.
Qed.
Lemma digits_bound m : 2 ^ (Zpos (digits2_pos m) - 1) <= Zpos m < 2 ^ Zpos (digits2_pos m).
Proof.
  induction m as [m IH|m IH|]; cbn [digits2_pos]; [| |cbn; lia]; rewrite Pos2Z.inj_succ.
  all: replace (Z.succ (Zpos (digits2_pos m)) - 1) with (Zpos (digits2_pos m)) by lia; rewrite Z.pow_succ_r by lia.
  all: assert (E : 2 ^ Zpos (digits2_pos m) = 2 * 2 ^ (Zpos (digits2_pos m) - 1)) by (rewrite <- Z.pow_succ_r by lia; f_equal; lia); lia.
Qed.
Lemma round_small s m : Zpos m < 2 ^ 53 -> exists f v, binary_round prec64 emax64 s m 0 = f /\ fval f v /\ v == inject_Z (if s then Zneg m else Zpos m).
Proof.
  intro L. pose proof (digits_bound m) as [B1 B2]. set (dg := Zpos (digits2_pos m)) in *.
  assert (D : 1 <= dg <= 53).
  { split; [unfold dg; lia|]. destruct (Z.le_gt_cases dg 53); [assumption|]. assert (2 ^ 53 <= 2 ^ (dg - 1)) by (apply Z.pow_le_mono_r; lia). lia. }
  assert (X : exists m' , shl_align m 0 (fexp prec64 emax64 (dg + 0)) = (m', dg - 53) /\ Zpos (digits2_pos m') = 53 /\ Zpos m' = Zpos m * 2 ^ (53 - dg)).
  { unfold shl_align, fexp, emin, prec64, emax64. rewrite Z.max_l by lia. replace (dg + 0 - 53 - 0) with (dg - 53) by lia. destruct (dg - 53) as [|d|d] eqn:E; [|lia|].
    - exists m. split; [reflexivity|]. fold dg. split; [lia|]. replace (53 - dg) with 0 by lia. lia.
    - exists (shift_pos d m). rewrite digits_shift. fold dg. split; [f_equal; lia|]. split; [lia|]. rewrite shift_pos_correct. replace (53 - dg) with (Zpos d) by lia. change (2 ^ Zpos d) with (Z.pow_pos 2 d). lia. }
  destruct X as (m' & E1 & E2 & E3). unfold binary_round. fold dg. rewrite E1. unfold binary_round_aux.
  assert (F : forall l, shr_fexp prec64 emax64 (Zpos m') (dg - 53) l = (shr_record_of_loc (Zpos m') l, dg - 53)).
  { intro l. unfold shr_fexp. cbn [Zdigits2]. rewrite E2. unfold fexp, emin, prec64, emax64. rewrite Z.max_l by lia. replace (53 + (dg - 53) - 53 - (dg - 53)) with 0 by lia. reflexivity. }
  rewrite F. cbn [shr_record_of_loc shr_m loc_of_shr_record round_nearest_even]. rewrite F. cbn [shr_record_of_loc shr_m].
  replace (dg - 53 <=? emax64 - prec64) with true by (symmetry; apply Z.leb_le; unfold emax64, prec64; lia).
  eexists _, _. split; [reflexivity|]. split; [reflexivity|]. destruct (Z.leb_spec 0 (dg - 53)) as [C|C].
  - replace (dg - 53) with 0 by lia. rewrite Z.pow_0_r, Z.mul_1_r. assert (Zpos m' = Zpos m) by (rewrite E3; replace (53 - dg) with 0 by lia; lia). destruct s; [|now rewrite H]. change (Zneg m') with (- Zpos m'). now rewrite H.
  - assert (P : 0 < 2 ^ (- (dg - 53))) by (apply Z.pow_pos_nonneg; lia). unfold Qeq, inject_Z. cbn [Qnum Qden]. rewrite Z2Pos.id by exact P. replace (- (dg - 53)) with (53 - dg) by lia.
    destruct s; [change (Zneg m') with (- Zpos m'); change (Zneg m) with (- Zpos m)|]; rewrite E3; lia.
Qed.
Theorem C58_float : forall z, - 2 ^ 53 < z < 2 ^ 53 -> exists f v, func_float [VInt z] = OVal (VFloat f) /\ fval f v /\ v == inject_Z z.
Proof.
  intros z R. cbn [Convert.func_float]. unfold f_of_int, binary_normalize. destruct z as [|m|m].
  - exists (S754_zero false), 0%Q. repeat split.
  - destruct (round_small false m) as (f & v & E & V & W); [lia|]. exists f, v. rewrite E. auto.
  - destruct (round_small true m) as (f & v & E & V & W); [lia|]. exists f, v. rewrite E. auto.
Qed.
(** truth values are 1 and 0, floats stay, texts are read by Go *)
Theorem C58_float_other : forall b, (exists f v, func_float [VBool b] = OVal (VFloat f) /\ fval f v /\ v == if b then 1 else 0) /\
  (forall f, func_float [VFloat f] = OVal (VFloat f)) /\
  (forall s r, func_float [VStr s] = r <-> (exists f, readFloat s = Some f /\ r = OVal (VFloat f)) \/ (readFloat s = None /\ r = OErr)).
Proof.
  intro b. split; [|split; [reflexivity|]].
  - destruct b; [|exists (S754_zero false), 0%Q; repeat split]. destruct (C58_float 1) as (f & v & E & V & W); [lia|]. exists f, v. split; [exact E|]. split; [exact V|exact W].
  - intros s r. cbn [Convert.func_float]. destruct (readFloat s) as [f|]; (split; [intros <-; eauto|intros [(g & E & ->)|(E & ->)]; try discriminate E; try (injection E as <-); reflexivity]).
Qed.

(** abs *)
Theorem C58_abs : forall z, in64 z -> z <> min64 -> func_abs [VInt z] = OVal (VInt (Z.abs z)).
Proof.
  intros z R N. cbn. destruct (Z.ltb_spec z 0) as [L|L]; [|now rewrite Z.abs_eq].
  rewrite wrap64_id; [now rewrite Z.abs_neq by lia|]. unfold in64, min64, max64 in *. lia.
Qed.
Theorem C58_abs_refuted : exists z, in64 z /\ func_abs [VInt z] = OVal (VInt z) /\ z < 0.
Proof. exists min64. split; [unfold in64, min64, max64; lia|]. split; reflexivity. Qed.

(** element(list, i) is the element at the position i counted from 0, element(map, key) the
    field; everything else is an error *)
Definition indexOf (v : value) (i : Z) : Prop := v = VInt i \/ exists s, v = VStr s /\ signed s i /\ in64 i.
Theorem C58_element_list : forall l x v,
  func_element [VList l; x] = OVal v <-> exists i n, indexOf x (Z.of_nat i) /\ nth_error l i = Some n /\ v = val n.
Proof.
  intros l x v.
  assert (At : forall i w, elementAt l i = OVal w <-> exists k n, i = Z.of_nat k /\ nth_error l k = Some n /\ w = val n).
  { intros i w. unfold elementAt. destruct (Z.ltb_spec i 0) as [L|L].
    - split; [discriminate|]. intros (k & n & -> & _). lia.
    - rewrite Z.geb_leb. destruct (Z.leb_spec (Z.of_nat (length l)) i) as [H|H].
      + split; [discriminate|]. intros (k & n & -> & E & _). assert (k < length l)%nat by (apply nth_error_Some; congruence). lia.
      + destruct (nth_error l (Z.to_nat i)) as [n|] eqn:E.
        * split; [intro X; injection X as <-; exists (Z.to_nat i), n; split; [lia|auto]|]. intros (k & m & -> & E' & ->). rewrite Nat2Z.id in E. congruence.
        * exfalso. apply nth_error_None in E. lia. }
  split.
  - destruct x; cbn; try discriminate.
    + intro E. apply At in E. destruct E as (k & n & -> & E & ->). exists k, n. split; [now left|auto].
    + destruct (parseInt s) as [i|] eqn:P; [|discriminate]. intro E. apply At in E. destruct E as (k & n & -> & E & ->). exists k, n. split; [|auto].
      right. apply parseInt_literal in P. destruct P as [P R]. apply signed_lit in P. eauto.
  - intros (i & n & [->|(s & -> & S & R)] & E & ->).
    + cbn. apply At. eauto.
    + cbn. apply signed_lit in S. rewrite (proj2 (parseInt_literal _ _) (conj S R)). apply At. eauto.
Qed.
Theorem C58_element_map : forall m k v, func_element [VMap m; VStr k] = OVal v <-> exists n, mget k m = Some n /\ v = val n.
Proof. intros m k v. cbn. destruct (mget k m) as [n|]; split; [intro E; injection E as <-; eauto|intros (x & E & ->); congruence|discriminate|intros (x & E & _); discriminate]. Qed.


(** without argument string() ends the run abnormally, it reports no error *)
Theorem C58_string_no_argument_refuted : func_string [] = OPanic.
Proof. reflexivity. Qed.
End Thms.

(** lower and upper exchange the letters a-z and A-Z (texts of ASCII characters) *)
Definition ascii7 (s : string) : Prop := forall c, In c (chars s) -> bytev c < 128.
Definition allChars : list ascii := map ascii_of_nat (seq 0 256).
Lemma all_chars c : In c allChars.
Proof. apply in_map_iff. exists (nat_of_ascii c). split; [apply ascii_nat_embedding|]. apply in_seq. pose proof (nat_ascii_bounded c). lia. Qed.
Lemma char_all (P : ascii -> bool) : forallb P allChars = true -> forall c, P c = true.
Proof. intros H c. rewrite forallb_forall in H. apply H, all_chars. Qed.
Definition smalls := chars "abcdefghijklmnopqrstuvwxyz".
Definition capitals := chars "ABCDEFGHIJKLMNOPQRSTUVWXYZ".
Definition capitalb (c d : ascii) : bool := existsb (fun p => Ascii.eqb (fst p) c && Ascii.eqb (snd p) d) (combine smalls capitals).
Lemma capitalb_spec c d : capitalb c d = true <-> capital c d.
Proof.
  unfold capitalb, capital. rewrite existsb_exists. split.
  - intros ([x y] & I & E). apply andb_true_iff in E. destruct E as [E1 E2]. apply Ascii.eqb_eq in E1, E2. cbn in E1, E2. subst x y.
    apply In_nth_error in I. destruct I as [k E]. exists k. revert E. fold smalls capitals. generalize smalls capitals k. intro l. induction l as [|a l IH]; intros [|b l'] [|n]; cbn; try discriminate.
    + intro E. injection E as -> ->. auto.
    + apply IH.
  - intros (k & E1 & E2). exists (c, d). split; [|cbn; now rewrite !Ascii.eqb_refl]. fold smalls capitals in *. apply nth_error_In with k. revert k E1 E2. generalize smalls capitals. intro l. induction l as [|a l IH]; intros [|b l'] [|n]; cbn; try discriminate; auto.
    congruence.
Qed.
Lemma upperC_spec c d : upperC c = d <-> capital c d \/ ((forall x, ~ capital c x) /\ d = c).
Proof.
  assert (T : forall c, capitalb c (upperC c) || (Ascii.eqb (upperC c) c && forallb (fun x => negb (capitalb c x)) allChars) = true) by (apply char_all; vm_compute; reflexivity).
  assert (U : forall c d, capital c d -> upperC c = d).
  { intros c0 d0 (k & E1 & E2). do 26 (destruct k as [|k]; [cbn in E1, E2; injection E1 as <-; injection E2 as <-; reflexivity|]). destruct k; discriminate E1. }
  split.
  - intros <-. specialize (T c). apply orb_true_iff in T. destruct T as [T|T]; [left; now apply capitalb_spec|].
    apply andb_true_iff in T. destruct T as [E F]. apply Ascii.eqb_eq in E. right. split; [|exact E]. intros x X. apply capitalb_spec in X.
    rewrite forallb_forall in F. specialize (F x (all_chars x)). rewrite X in F. discriminate F.
  - intros [H|[N ->]]; [now apply U|]. specialize (T c). apply orb_true_iff in T. destruct T as [T|T]; [exfalso; apply (N (upperC c)); now apply capitalb_spec|].
    apply andb_true_iff in T. now apply Ascii.eqb_eq.
Qed.
Lemma lowerC_cap c d : lowerC c = d <-> capital d c \/ ((forall x, ~ capital x c) /\ d = c).
Proof.
  assert (T : forall c, capitalb (lowerC c) c || (Ascii.eqb (lowerC c) c && forallb (fun x => negb (capitalb x c)) allChars) = true) by (apply char_all; vm_compute; reflexivity).
  assert (U : forall c d, capital d c -> lowerC c = d).
  { intros c0 d0 (k & E1 & E2). do 26 (destruct k as [|k]; [cbn in E1, E2; injection E1 as <-; injection E2 as <-; reflexivity|]). destruct k; discriminate E1. }
  split.
  - intros <-. specialize (T c). apply orb_true_iff in T. destruct T as [T|T]; [left; now apply capitalb_spec|].
    apply andb_true_iff in T. destruct T as [E F]. apply Ascii.eqb_eq in E. right. split; [|exact E]. intros x X. apply capitalb_spec in X.
    rewrite forallb_forall in F. specialize (F x (all_chars x)). rewrite X in F. discriminate F.
  - intros [H|[N ->]]; [now apply U|]. specialize (T c). apply orb_true_iff in T. destruct T as [T|T]; [exfalso; apply (N (lowerC c)); now apply capitalb_spec|].
    apply andb_true_iff in T. now apply Ascii.eqb_eq.
Qed.
Theorem C58_upper : forall s t, ascii7 s -> (func_upper [VStr s] = OVal (VStr t) <-> upperCased s t).
Proof.
  intros s t _. assert (E : func_upper [VStr s] = OVal (VStr t) <-> upperS s = t) by (cbn; split; congruence). rewrite E. clear E. unfold upperCased.
  revert t. induction s as [|c s IH]; intros [|d t]; cbn [upperS chars list_ascii_of_string].
  - split; [constructor|reflexivity].
  - split; [discriminate|intro X; inversion X].
  - split; [discriminate|intro X; inversion X].
  - split.
    + intro E. injection E as E1 E2. constructor; [now apply upperC_spec|now apply IH].
    + intro X. inversion X as [|? ? ? ? X1 X2]; subst. f_equal; [now apply upperC_spec|now apply IH].
Qed.
Theorem C58_lower : forall s t, ascii7 s -> (func_lower [VStr s] = OVal (VStr t) <-> lowerCased s t).
Proof.
  intros s t _. assert (E : func_lower [VStr s] = OVal (VStr t) <-> lowerS s = t) by (cbn; split; congruence). rewrite E. clear E. unfold lowerCased.
  revert t. induction s as [|c s IH]; intros [|d t]; cbn [lowerS chars list_ascii_of_string].
  - split; [constructor|reflexivity].
  - split; [discriminate|intro X; inversion X].
  - split; [discriminate|intro X; inversion X].
  - split.
    + intro E. injection E as E1 E2. constructor; [now apply lowerC_cap|now apply IH].
    + intro X. inversion X as [|? ? ? ? X1 X2]; subst. f_equal; [now apply lowerC_cap|now apply IH].
Qed.

(** rand(n) lies between 0 and n (exclusive), whatever the random source gives *)
Section Rand.
Variable draw : Z -> Z.
Variable randText : list value -> ores value.
Hypothesis source : forall n, 0 < n -> 0 <= draw n < n.
Theorem C58_rand : forall n, in64 n -> n <> 0 -> n <> min64 ->
  exists z, func_rand draw randText [VInt n] = OVal (VInt z) /\ (0 < n -> 0 <= z < n) /\ (n < 0 -> n < z <= 0).
Proof.
  intros n R N M. cbn [func_rand]. destruct (Z.ltb_spec n 0) as [L|L].
  - rewrite wrap64_id by (unfold in64, min64, max64 in *; lia). unfold randNumber. destruct (Z.leb_spec (- n) 0) as [H|H]; [lia|].
    eexists. split; [reflexivity|]. pose proof (source (- n) H). lia.
  - rewrite Z.gtb_ltb. destruct (Z.ltb_spec 0 n) as [H|H]; [|lia]. unfold randNumber. destruct (Z.leb_spec n 0) as [H'|H']; [lia|].
    eexists. split; [reflexivity|]. pose proof (source n H). lia.
Qed.
Theorem C58_rand_panics_refuted : exists n, in64 n /\ n <> 0 /\ func_rand draw randText [VInt n] = OPanic.
Proof. exists min64. split; [unfold in64, min64, max64; lia|]. split; [discriminate|reflexivity]. Qed.
End Rand.

(** ** examples *)
Example ex_string_base : Convert.func_string (fun _ => "") [VInt (-255); VInt 16] = OVal (VStr "-ff").
Proof. reflexivity. Qed.
Example ex_numeral : numeral 2 5 "101".
Proof. pose proof (formatInt_numeral 5 2 ltac:(lia)) as X. exact X. Qed.
(** 2.5 is between 2 and 3; -2.5 *)
Example ex_value : fval (S754_finite false 5 (-1)) (5 # 2) /\ fval (S754_finite true 5 (-1)) (-5 # 2).
Proof. split; reflexivity. Qed.
Example ex_roundings :
  map (fun r => Convert.func_rounding (fun _ => 0) r [VFloat (S754_finite true 5 (-1))]) [fFloor; fCeil; fRound; fEven]
  = [OVal (VInt (-3)); OVal (VInt (-2)); OVal (VInt (-3)); OVal (VInt (-2))].
Proof. reflexivity. Qed.
Example ex_half : roundsHalfEven (-5 # 2) (-2) /\ roundsHalfAway (-5 # 2) (-3) /\ truncates (-5 # 2) (-2).
Proof.
  unfold roundsHalfEven, roundsHalfAway, truncates, tie, nearest, roundsDown, roundsUp, Qle, Qlt, Qeq; cbn. repeat split; intros; try reflexivity; try discriminate; lia.
Qed.
Example ex_upper : func_upper [VStr "aB-9z"] = OVal (VStr "AB-9Z") /\ func_lower [VStr "aB-9Z"] = OVal (VStr "ab-9z").
Proof. split; reflexivity. Qed.
Example ex_source : let draw := fun n => n - 1 in (forall n, 0 < n -> 0 <= draw n < n) /\ func_rand draw (fun _ => OErr) [VInt (-6)] = OVal (VInt (-5)).
Proof. cbv zeta. split; [intros; lia|reflexivity]. Qed.
Example ex_element : func_element [VList [newNode (VStr "a") ""; newNode (VStr "b") ""]; VStr "+1"] = OVal (VStr "b").
Proof. reflexivity. Qed.

Print Assumptions C58_string.
Print Assumptions C58_string_base.
Print Assumptions C58_integer_text.
Print Assumptions C58_roundtrip.
Print Assumptions C58_bool_text.
Print Assumptions C58_bool_roundtrip.
Print Assumptions C58_bool_number.
Print Assumptions C58_truncate.
Print Assumptions C58_floor.
Print Assumptions C58_ceil.
Print Assumptions C58_round.
Print Assumptions C58_roundtoeven.
Print Assumptions C58_roundings_exist.
Print Assumptions C58_integer_of_bool_refuted.
Print Assumptions C58_abs.
Print Assumptions C58_abs_refuted.
Print Assumptions C58_element_list.
Print Assumptions C58_element_map.
Print Assumptions C58_string_no_argument_refuted.
Print Assumptions C58_upper.
Print Assumptions C58_lower.
Print Assumptions C58_rand.
Print Assumptions C58_rand_panics_refuted.

Print Assumptions C58_float.
Print Assumptions C58_float_other.
