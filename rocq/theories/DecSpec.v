(** Decimal numerals, specified without any conversion function, and the proof
    that the number parsers of the model read exactly these. *)
From Coq Require Import Lia DecimalString Decimal.
From Verif Require Import Core CoreFacts Str StrFacts.

(** [decimal s z]: s is a nonempty sequence of digits and denotes z *)
Inductive digit : ascii -> Z -> Prop :=
| dg0 : digit "0" 0 | dg1 : digit "1" 1 | dg2 : digit "2" 2 | dg3 : digit "3" 3 | dg4 : digit "4" 4
| dg5 : digit "5" 5 | dg6 : digit "6" 6 | dg7 : digit "7" 7 | dg8 : digit "8" 8 | dg9 : digit "9" 9.
Inductive decimal : string -> Z -> Prop :=
| dec_one c d : digit c d -> decimal (String c "") d
| dec_more s z c d : decimal s z -> digit c d -> decimal (s +++ String c "") (10 * z + d).

Fixpoint decfold (s : string) (acc : Z) : option Z :=
  match s with
  | EmptyString => Some acc
  | String c r => if isDigit c then decfold r (10 * acc + (bytev c - 48)) else None
  end.

Lemma digit_spec c d : digit c d <-> isDigit c = true /\ d = bytev c - 48.
Proof.
  split.
  - intros []; split; reflexivity.
  - intros [H ->]. destruct c as [[] [] [] [] [] [] [] []]; try discriminate H; cbn; constructor.
Qed.

Lemma decfold_snoc s c acc : decfold (s +++ String c "") acc =
  match decfold s acc with Some z => if isDigit c then Some (10 * z + (bytev c - 48)) else None | None => None end.
Proof.
  revert acc. induction s as [|x s IH]; intro acc; cbn; [reflexivity|].
  destruct (isDigit x); [apply IH|reflexivity].
Qed.

Lemma of_uint_acc_fold u p :
  decfold (NilEmpty.string_of_uint u) (Z.pos p) = Some (Z.pos (Pos.of_uint_acc u p)).
Proof.
  revert p. induction u as [|u IH|u IH|u IH|u IH|u IH|u IH|u IH|u IH|u IH|u IH]; intro p;
    cbn [NilEmpty.string_of_uint Pos.of_uint_acc]; [reflexivity|..]; rewrite <- IH; cbn [decfold];
    match goal with |- (if ?b then _ else _) = _ => replace b with true by reflexivity end; f_equal;
    match goal with |- _ + (?b - 48) = _ => let r := eval vm_compute in b in change b with r end; lia.
Qed.

Lemma of_uint_fold u : decfold (NilEmpty.string_of_uint u) 0 = Some (Z.of_uint u).
Proof.
  unfold Z.of_uint. induction u as [|u IH|u IH|u IH|u IH|u IH|u IH|u IH|u IH|u IH|u IH];
    cbn [NilEmpty.string_of_uint Pos.of_uint]; [reflexivity|exact IH|..];
    cbn [Z.of_N]; rewrite <- of_uint_acc_fold; reflexivity.
Qed.

Lemma uint_of_string_digits s : (exists u, NilEmpty.uint_of_string s = Some u) <-> decfold s 0 <> None.
Proof.
  assert (G : forall acc, (exists u, NilEmpty.uint_of_string s = Some u) <-> decfold s acc <> None).
  { induction s as [|c s IH]; intro acc.
    - cbn. split; [discriminate|eauto].
    - cbn [decfold NilEmpty.uint_of_string]. destruct (isDigit c) eqn:D.
      + rewrite <- IH. split; intros [u E].
        * destruct (NilEmpty.uint_of_string s); [eauto|discriminate].
        * rewrite E. apply digit_spec with (d := bytev c - 48) in D || idtac.
          assert (X : digit c (bytev c - 48)) by (apply digit_spec; auto).
          inversion X; cbn; eauto.
      + split; [|congruence]. intros [u E]. exfalso.
        destruct (NilEmpty.uint_of_string s) as [d|]; [|discriminate].
        destruct c as [[] [] [] [] [] [] [] []]; try discriminate E; discriminate D. }
  apply G.
Qed.

Lemma parseNat_fold s : parseNat s = match s with EmptyString => None | _ => decfold s 0 end.
Proof.
  unfold parseNat. destruct s as [|c s]; [reflexivity|].
  destruct (NilEmpty.uint_of_string (String c s)) as [u|] eqn:E.
  - cbn [option_map]. rewrite <- (NilEmpty.sus _ _ E). rewrite of_uint_fold. reflexivity.
  - cbn [option_map]. destruct (decfold (String c s) 0) eqn:F; [|reflexivity].
    assert (X : exists u, NilEmpty.uint_of_string (String c s) = Some u) by (apply uint_of_string_digits; congruence).
    destruct X as [u X]. congruence.
Qed.

Lemma snoc_ind (P : string -> Prop) : P "" -> (forall s c, P s -> P (s +++ String c "")) -> forall s, P s.
Proof.
  intros H0 H1 s. rewrite <- (string_of_list_ascii_of_string s).
  induction (list_ascii_of_string s) as [|c l IH] using rev_ind; [exact H0|].
  replace (string_of_list_ascii (l ++ [c])) with (string_of_list_ascii l +++ String c "")%string; [apply H1, IH|].
  clear. induction l; [reflexivity|]. cbn. rewrite <- IHl. reflexivity.
Qed.

Lemma parseNat_decimal s z : parseNat s = Some z <-> decimal s z.
Proof.
  rewrite parseNat_fold. split.
  - revert z. induction s as [|s c IH] using snoc_ind; intros z; [discriminate|].
    assert (E : match (s +++ String c "")%string with EmptyString => None | _ => decfold (s +++ String c "") 0 end = decfold (s +++ String c "") 0)
      by (destruct s; reflexivity).
    rewrite E, decfold_snoc. destruct s as [|x s].
    + cbn. destruct (isDigit c) eqn:D; [|discriminate]. intro H. inversion H; subst. constructor. apply digit_spec; auto.
    + destruct (decfold (String x s) 0) as [y|]; [|discriminate]. destruct (isDigit c) eqn:D; [|discriminate].
      intro H. inversion H; subst. constructor; [apply IH; reflexivity|]. apply digit_spec; auto.
  - induction 1 as [c d H|s z c d H IH Hd].
    + apply digit_spec in H. destruct H as [H ->]. cbn. rewrite H. reflexivity.
    + assert (E : match (s +++ String c "")%string with EmptyString => None | _ => decfold (s +++ String c "") 0 end = decfold (s +++ String c "") 0)
        by (destruct s; reflexivity).
      rewrite E, decfold_snoc. destruct s as [|x s]; [discriminate|]. rewrite IH.
      apply digit_spec in Hd. destruct Hd as [Hd ->]. rewrite Hd. reflexivity.
Qed.

(** an integer literal: optional minus sign, digits *)
Definition literal (s : string) (z : Z) : Prop :=
  decimal s z \/ exists r y, s = String "-" r /\ decimal r y /\ z = - y.

Lemma decimal_head s z : decimal s z -> exists c d r, s = String c r /\ digit c d.
Proof.
  induction 1 as [c d H|s z c d H [c0 [d0 [r [-> H0]]]] Hd].
  - exists c, d, "". auto.
  - exists c0, d0, (r +++ String c "")%string. auto.
Qed.

Lemma parse_literal s z :
  (match s with String "-" p => option_map Z.opp (parseNat p) | _ => parseNat s end) = Some z <-> literal s z.
Proof.
  unfold literal. destruct s as [|c r].
  - cbn. split; [discriminate|]. intros [H|[r [y [E _]]]]; [|discriminate].
    destruct (decimal_head _ _ H) as [? [? [? [? _]]]]; discriminate.
  - destruct (ascii_dec c "-") as [->|Hc].
    + split.
      * intro H. right. destruct (parseNat r) as [y|] eqn:E; [|discriminate]. inversion H; subst.
        apply parseNat_decimal in E. eauto.
      * intros [H|[r' [y [E [H ->]]]]].
        -- destruct (decimal_head _ _ H) as [c [d [r' [E D]]]]. inversion E; subst. inversion D.
        -- inversion E; subst. apply parseNat_decimal in H. rewrite H. reflexivity.
    + assert (E : match String c r with String "-" p => option_map Z.opp (parseNat p) | _ => parseNat (String c r) end = parseNat (String c r)).
      { destruct c as [[] [] [] [] [] [] [] []]; try reflexivity. congruence. }
      rewrite E, parseNat_decimal. split; [auto|]. intros [H|[r' [y [E' _]]]]; [exact H|]. inversion E'; subst. congruence.
Qed.
