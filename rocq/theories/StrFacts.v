(** Basic facts about strings and number texts. *)
From Coq Require Import Lia DecimalString DecimalZ DecimalPos DecimalFacts.
From Verif Require Import Core Str.

Lemma sapp_assoc a b c : ((a +++ b) +++ c = a +++ (b +++ c))%string.
Proof. induction a as [|x a IH]; cbn; [reflexivity|]. rewrite IH. reflexivity. Qed.
Lemma sapp_nil_r a : (a +++ "" = a)%string.
Proof. induction a as [|x a IH]; cbn; [reflexivity|]. rewrite IH. reflexivity. Qed.
Lemma slength_app a b : String.length (a +++ b) = (String.length a + String.length b)%nat.
Proof. induction a as [|x a IH]; cbn; [reflexivity|]. rewrite IH. reflexivity. Qed.
Lemma substring_app_l a b : String.substring 0 (String.length a) (a +++ b) = a.
Proof. induction a as [|x a IH]; cbn; [destruct b; reflexivity|]. rewrite IH. reflexivity. Qed.
Lemma substring_app_r a b n : String.substring (String.length a) n (a +++ b) = String.substring 0 n b.
Proof. induction a as [|x a IH]; cbn; [reflexivity|]. exact IH. Qed.
Lemma substring_full s : String.substring 0 (String.length s) s = s.
Proof. induction s as [|x a IH]; cbn; [reflexivity|]. rewrite IH. reflexivity. Qed.
Lemma sapp_inj_l a b c : (a +++ b = a +++ c)%string -> b = c.
Proof. induction a as [|x a IH]; cbn; [auto|]. intro H. inversion H. auto. Qed.
Lemma sapp_inj_r a b c : (a +++ c = b +++ c)%string -> a = b.
Proof.
  revert b. induction a as [|x a IH]; intros [|y b] H; cbn in *; auto.
  - exfalso. apply (f_equal String.length) in H. cbn in H. rewrite slength_app in H. lia.
  - exfalso. apply (f_equal String.length) in H. cbn in H. rewrite slength_app in H. lia.
  - inversion H. f_equal. auto.
Qed.

Lemma prefix_spec p s : String.prefix p s = true <-> exists r, s = (p +++ r)%string.
Proof.
  revert s. induction p as [|c p IH]; intro s; simpl.
  - split; [eauto|destruct s; reflexivity].
  - destruct s as [|d s]; [split; [discriminate|intros [r H]; discriminate]|].
    cbn [String.prefix]. destruct (ascii_dec c d) as [->|Hn].
    + rewrite IH. split; intros [r H]; exists r; [rewrite H; reflexivity|inversion H; reflexivity].
    + split; [discriminate|]. intros [r H]. inversion H. congruence.
Qed.
Lemma hasPrefix_spec s p : hasPrefix s p = true <-> exists r, s = (p +++ r)%string.
Proof. apply prefix_spec. Qed.

Lemma substring_split s n : (n <= String.length s)%nat ->
  s = (String.substring 0 n s +++ String.substring n (String.length s - n) s)%string.
Proof.
  revert s. induction n as [|n IH]; intros s H.
  - destruct s as [|x s]; [reflexivity|]. cbn [String.length Nat.sub].
    change (String.substring 0 0 (String x s)) with "". cbn [String.append].
    symmetry. apply (substring_full (String x s)).
  - destruct s as [|x s]; cbn in *; [lia|]. f_equal. apply IH. lia.
Qed.

Lemma hasSuffix_spec s p : hasSuffix s p = true <-> exists r, s = (r +++ p)%string.
Proof.
  unfold hasSuffix. rewrite andb_true_iff, Nat.leb_le, String.eqb_eq. split.
  - intros [Hl He]. exists (String.substring 0 (String.length s - String.length p) s).
    rewrite <- He at 2. 
    rewrite (substring_split s (String.length s - String.length p)) at 1 by lia.
    f_equal. f_equal. lia.
  - intros [r ->]. rewrite slength_app. split; [lia|].
    replace (String.length r + String.length p - String.length p)%nat with (String.length r) by lia.
    rewrite substring_app_r. apply substring_full.
Qed.

(** ** number texts *)
Lemma uint_nonempty u : u <> Decimal.Nil -> NilEmpty.string_of_uint u <> "".
Proof. destruct u; cbn; congruence. Qed.

Lemma parseNat_uint u : u <> Decimal.Nil -> parseNat (NilEmpty.string_of_uint u) = Some (Z.of_uint u).
Proof.
  intro H. unfold parseNat. destruct (NilEmpty.string_of_uint u) eqn:E.
  - exfalso. apply (uint_nonempty u H E).
  - rewrite <- E, NilEmpty.usu. reflexivity.
Qed.

Lemma unsigned_not_sign u c r : NilEmpty.string_of_uint u = String c r -> c <> "-"%char /\ c <> "+"%char /\ c <> "["%char.
Proof. destruct u; cbn; intro H; inversion H; repeat split; discriminate. Qed.

Lemma to_uint_nonnil p : Pos.to_uint p <> Decimal.Nil.
Proof.
  intro H. pose proof (DecimalPos.Unsigned.of_to p) as E. rewrite H in E. discriminate E.
Qed.

Lemma itoa_nonneg z : 0 <= z -> exists u, u <> Decimal.Nil /\ itoa z = NilEmpty.string_of_uint u /\ Z.of_uint u = z.
Proof.
  intro H. destruct z as [|p|p]; [| |lia].
  - exists (Decimal.D0 Decimal.Nil). repeat split. discriminate.
  - exists (Pos.to_uint p). split; [apply to_uint_nonnil|]. split.
    + unfold itoa. cbn. unfold NilZero.string_of_uint.
      destruct (Pos.to_uint p) eqn:E; try reflexivity. exfalso. apply (to_uint_nonnil p E).
    + unfold Z.of_uint. rewrite DecimalPos.Unsigned.of_to. reflexivity.
Qed.
Lemma itoa_neg p : itoa (Z.neg p) = String "-" (itoa (Z.pos p)).
Proof. reflexivity. Qed.

Lemma parseNat_itoa z : 0 <= z -> parseNat (itoa z) = Some z.
Proof.
  intro H. destruct (itoa_nonneg z H) as [u [Hu [E1 E2]]]. rewrite E1, parseNat_uint, E2 by exact Hu. reflexivity.
Qed.

(** the text of an int64 is read back *)
Lemma parseInt_itoa z : in64 z -> parseInt (itoa z) = Some z.
Proof.
  intro H. assert (Hb : in64b z = true) by (unfold in64b, in64 in *; lia).
  destruct (Z.lt_ge_cases z 0) as [Hn|Hp].
  - destruct z as [|p|p]; try lia. rewrite itoa_neg. cbn [parseInt].
    rewrite parseNat_itoa by lia. cbn [option_map Z.opp]. rewrite Hb. reflexivity.
  - destruct (itoa_nonneg z Hp) as [u [Hu [E1 E2]]]. unfold parseInt.
    pose proof (parseNat_itoa z Hp) as E. rewrite E1 in *.
    destruct (NilEmpty.string_of_uint u) as [|c r] eqn:Eu; [exfalso; apply (uint_nonempty u Hu Eu)|].
    destruct (unsigned_not_sign u c r Eu) as [N1 [N2 _]].
    destruct (ascii_dec c "-") as [->|]; [congruence|]. destruct (ascii_dec c "+") as [->|]; [congruence|].
    assert (G : match String c r with
      | String "-" r0 => match option_map Z.opp (parseNat r0) with Some v => if in64b v then Some v else None | None => None end
      | String "+" r0 => match parseNat r0 with Some v => if in64b v then Some v else None | None => None end
      | _ => match parseNat (String c r) with Some v => if in64b v then Some v else None | None => None end
      end = match parseNat (String c r) with Some v => if in64b v then Some v else None | None => None end).
    { destruct c as [[] [] [] [] [] [] [] []]; try reflexivity; congruence. }
    rewrite G, E, Hb. reflexivity.
Qed.

Lemma itoa_inj x y : in64 x -> in64 y -> itoa x = itoa y -> x = y.
Proof.
  intros Hx Hy H. apply (f_equal parseInt) in H. rewrite !parseInt_itoa in H by assumption. congruence.
Qed.
