(** C21 (integer ranges) and C22 (slices and substrings). *)
From Coq Require Import Lia.
From Verif Require Import Core CoreFacts Str StrFacts RangeSlice.

(* ------------------------------------------------------------------ *)
(** * C21 *)

(** Specification: the integers from [a] to [b] in steps of one, in the direction
    from [a] to [b]: there are |b-a|+1 of them and the i-th is i steps from [a] *)
Definition counts (a b : Z) (l : list Z) : Prop :=
  Z.of_nat (length l) = Z.abs (b - a) + 1 /\
  forall i x, nth_error l i = Some x -> x = if a <=? b then a + Z.of_nat i else a - Z.of_nat i.

Fixpoint upto (n : nat) (i d : Z) : list Z := match n with O => [] | S k => i :: upto k (i + d) d end.
Lemma upto_len n i d : length (upto n i d) = n.
Proof. revert i. induction n as [|n IH]; intro i; cbn; [|rewrite IH]; reflexivity. Qed.
Lemma upto_nth n i d j x : nth_error (upto n i d) j = Some x -> x = i + d * Z.of_nat j.
Proof.
  revert i j. induction n as [|n IH]; intros i [|j]; cbn [upto nth_error]; try discriminate.
  - intro H. injection H as <-. lia.
  - intro H. apply IH in H. lia.
Qed.

Ltac w64 := unfold in64, min64, max64 in *; lia.

Lemma loop_up n : forall i stop, in64 i -> in64 stop -> stop < max64 -> stop - i + 1 = Z.of_nat n ->
  forall f, rangeLoop (n + 1 + f) i stop 1 = Some (upto n i 1).
Proof.
  induction n as [|n IH]; intros i stop Hi Hs Hm Hn f.
  - cbn [Nat.add rangeLoop upto]. rewrite !Z.mul_1_r, !wrap64_id by assumption.
    destruct (i <=? stop) eqn:E; [apply Z.leb_le in E; lia|reflexivity].
  - cbn [Nat.add rangeLoop upto]. rewrite !Z.mul_1_r, !(wrap64_id i), (wrap64_id stop) by assumption.
    destruct (i <=? stop) eqn:E; [|apply Z.leb_gt in E; lia].
    rewrite wrap64_id by w64. rewrite IH by w64. reflexivity.
Qed.
Lemma loop_down n : forall i stop, in64 i -> min64 + 1 < stop -> min64 < i -> i <= max64 -> i - stop + 1 = Z.of_nat n ->
  forall f, rangeLoop (n + 1 + f) i stop (-1) = Some (upto n i (-1)).
Proof.
  induction n as [|n IH]; intros i stop Hi Hs Hm Hx Hn f.
  - cbn [Nat.add rangeLoop upto]. rewrite !wrap64_id by w64.
    destruct (i * -1 <=? stop * -1) eqn:E; [apply Z.leb_le in E; lia|reflexivity].
  - cbn [Nat.add rangeLoop upto]. rewrite !(wrap64_id (i * -1)), (wrap64_id (stop * -1)) by w64.
    destruct (i * -1 <=? stop * -1) eqn:E; [|apply Z.leb_gt in E; lia].
    rewrite wrap64_id by w64. rewrite IH by w64. reflexivity.
Qed.

(** C21: for every pair of 64-bit integers, with the end bound not at the last
    position(s) of the integer range, the evaluation terminates and yields exactly
    the integers from [a] to [b].  (For the excluded bounds see below.) *)
Theorem C21_range_partial : forall a b, in64 a -> in64 b -> (a <= b -> b < max64) -> (b < a -> min64 + 1 < b) ->
  exists l, counts a b l /\ exists fuel, forall more, rangeExpr (fuel + more) a b = Some l.
Proof.
  intros a b Ha Hb Hu Hd. unfold rangeExpr.
  destruct (b <? a) eqn:E; [apply Z.ltb_lt in E|apply Z.ltb_ge in E].
  - exists (upto (Z.to_nat (a - b + 1)) a (-1)). split.
    + split; [rewrite upto_len; lia|]. intros i x H. apply upto_nth in H. destruct (a <=? b) eqn:E2; [apply Z.leb_le in E2; lia|lia].
    + exists (Z.to_nat (a - b + 1) + 1)%nat. intro f. apply loop_down; w64.
  - exists (upto (Z.to_nat (b - a + 1)) a 1). split.
    + split; [rewrite upto_len; lia|]. intros i x H. apply upto_nth in H. destruct (a <=? b) eqn:E2; [lia|apply Z.leb_gt in E2; lia].
    + exists (Z.to_nat (b - a + 1) + 1)%nat. intro f. apply loop_up; w64.
Qed.
(** the result is unique: what the loop yields with any amount of fuel is that list *)
Lemma rangeLoop_mono f i s d l : rangeLoop f i s d = Some l -> forall g, rangeLoop (f + g) i s d = Some l.
Proof.
  revert i l. induction f as [|f IH]; intros i l H g; [discriminate|].
  cbn [Nat.add rangeLoop] in *. destruct (wrap64 (i * d) <=? wrap64 (s * d)); [|exact H].
  destruct (rangeLoop f (wrap64 (i + d)) s d) as [r|] eqn:E; [|discriminate].
  rewrite (IH _ _ E). exact H.
Qed.
Theorem C21_sound : forall a b fuel l, in64 a -> in64 b -> (a <= b -> b < max64) -> (b < a -> min64 + 1 < b) ->
  rangeExpr fuel a b = Some l -> counts a b l.
Proof.
  intros a b fuel l Ha Hb Hu Hd H. destruct (C21_range_partial a b Ha Hb Hu Hd) as [l' [C [f Hf]]].
  specialize (Hf fuel). unfold rangeExpr in *. apply rangeLoop_mono with (g := f) in H.
  rewrite Nat.add_comm in H. congruence.
Qed.

(** C21, the excluded bounds: with [b] the largest integer an ascending range
    never ends; with [b] the second smallest a descending one never ends, and
    with [b] the smallest it yields nothing. *)
Lemma up_forever f : forall i, in64 i -> rangeLoop f i max64 1 = None.
Proof.
  induction f as [|f IH]; intros i Hi; [reflexivity|]. cbn [rangeLoop].
  rewrite !Z.mul_1_r, (wrap64_id i), (wrap64_id max64) by w64.
  destruct (i <=? max64) eqn:E; [|apply Z.leb_gt in E; w64]. rewrite IH by apply wrap64_range. reflexivity.
Qed.
Lemma down_forever f : forall i, in64 i -> rangeLoop f i (min64 + 1) (-1) = None.
Proof.
  induction f as [|f IH]; intros i Hi; [reflexivity|]. cbn [rangeLoop].
  replace (wrap64 ((min64 + 1) * -1)) with max64 by reflexivity.
  pose proof (wrap64_range (i * -1)) as R.
  destruct (wrap64 (i * -1) <=? max64) eqn:E; [|apply Z.leb_gt in E; w64]. rewrite IH by apply wrap64_range. reflexivity.
Qed.
Theorem C21_range_refuted :
  (forall a fuel, in64 a -> rangeExpr fuel a max64 = None) /\
  (forall a fuel, in64 a -> min64 + 1 < a -> rangeExpr fuel a (min64 + 1) = None) /\
  (forall a fuel, in64 a -> min64 < a -> rangeExpr (S fuel) a min64 = Some []).
Proof.
  unfold rangeExpr. repeat split.
  - intros a f Ha. destruct (max64 <? a) eqn:E; [apply Z.ltb_lt in E; w64|apply up_forever; exact Ha].
  - intros a f Ha Hg. destruct (min64 + 1 <? a) eqn:E; [apply down_forever; exact Ha|apply Z.ltb_ge in E; w64].
  - intros a f Ha Hg. destruct (min64 <? a) eqn:E; [|apply Z.ltb_ge in E; w64].
    cbn [rangeLoop]. replace (wrap64 (min64 * -1)) with min64 by reflexivity.
    rewrite wrap64_id by w64. destruct (a * -1 <=? min64) eqn:E2; [apply Z.leb_le in E2; w64|reflexivity].
Qed.
Example C21_case : rangeExpr 10 3 7 = Some [3; 4; 5; 6; 7] /\ rangeExpr 10 2 (-1) = Some [2; 1; 0; -1].
Proof. split; reflexivity. Qed.

(* ------------------------------------------------------------------ *)
(** * C22: slices *)

(** Specification: a bound denotes a position, counted from the end when negative;
    an omitted bound is the first or the last position (in the counting of the
    other bound). *)
Inductive bounds (len : Z) : option Z -> option Z -> Z -> Z -> Prop :=
| B_both a b : bounds len (Some a) (Some b) a b
| B_from a : bounds len (Some a) None a (if a <? 0 then -1 else len - 1)
| B_to b : bounds len None (Some b) (if b <? 0 then - len else 0) b.
(** [r] consists of the elements of [l] at the positions i..j *)
Definition section {A} (l : list A) (i j : Z) (r : list A) : Prop :=
  exists p q, l = p ++ r ++ q /\ Z.of_nat (length p) = i /\ Z.of_nat (length r) = j - i + 1.
Definition position (len i : Z) : Z := if i <? 0 then len + i else i.

Section SL.
Context {A : Type}.
(** Go slices are shorter than 2^63 *)
Definition fitsL (l : list A) : Prop := Z.of_nat (length l) <= max64.
Definition bnd (o : option Z) : Prop := match o with Some z => in64 z | None => True end.

Lemma getRange_bounds a b len : 0 <= len <= max64 ->
  (forall s e, getRange a b len = Some (s, e) <-> bounds len a b s e) /\
  (getRange a b len = None <-> a = None /\ b = None).
Proof.
  intro H. unfold getRange. destruct (len <? 0) eqn:E; [apply Z.ltb_lt in E; lia|]. cbn [andb].
  assert (W1 : wrap64 (len - 1) = len - 1) by (apply wrap64_id; w64).
  assert (W2 : wrap64 (- len) = - len) by (apply wrap64_id; w64).
  rewrite W1, W2.
  destruct a as [a|], b as [b|]; repeat split; try congruence; try tauto;
    try (intro X; injection X as <- <-; constructor); try (intro X; inversion X; reflexivity);
    try (intros [X Y]; congruence).
Qed.

Lemma copyLoop_ok n : forall i (arr : list A), 0 <= i -> i + Z.of_nat n <= Z.of_nat (length arr) ->
  copyLoop n i arr = SOk (firstn n (skipn (Z.to_nat i) arr)).
Proof.
  induction n as [|n IH]; intros i arr Hi Hn; [reflexivity|]. cbn [copyLoop].
  destruct (i <? 0) eqn:E; [apply Z.ltb_lt in E; lia|].
  destruct (nth_error arr (Z.to_nat i)) as [x|] eqn:E2; [|apply nth_error_None in E2; lia].
  rewrite IH by lia. replace (Z.to_nat (i + 1)) with (S (Z.to_nat i)) by lia.
  assert (S1 : skipn (Z.to_nat i) arr = x :: skipn (S (Z.to_nat i)) arr).
  { clear -E2. revert arr E2. induction (Z.to_nat i) as [|k IH]; intros [|y arr] H; try discriminate.
    - injection H as ->. reflexivity.
    - apply IH. exact H. }
  rewrite S1. reflexivity.
Qed.
Lemma section_of (arr : list A) i n : 0 <= i -> i + Z.of_nat n <= Z.of_nat (length arr) ->
  section arr i (i + Z.of_nat n - 1) (firstn n (skipn (Z.to_nat i) arr)).
Proof.
  intros Hi Hn. exists (firstn (Z.to_nat i) arr), (skipn n (skipn (Z.to_nat i) arr)).
  rewrite (firstn_skipn n), firstn_skipn. repeat split.
  - rewrite firstn_length. lia.
  - rewrite firstn_length, skipn_length. lia.
Qed.

(** the complete behaviour of a slice *)
Lemma slice_spec (l : list A) a b s e : fitsL l -> bnd a -> bnd b -> bounds (Z.of_nat (length l)) a b s e ->
  let len := Z.of_nat (length l) in
  (e < s -> slice l a b = SOk []) /\
  (s <= e -> s < 0 -> 0 <= e -> slice l a b = SErr) /\
  (s <= e -> e < 0 -> s < - len -> slice l a b = SErr) /\
  (s <= e -> 0 <= s -> len <= e -> slice l a b = SErr) /\
  (s <= e -> e < 0 -> - len <= s -> exists r, slice l a b = SOk r /\ section l (len + s) (len + e) r) /\
  (s <= e -> 0 <= s -> e < len -> exists r, slice l a b = SOk r /\ section l s e r).
Proof.
  intros F Ba Bb B len. unfold slice.
  pose proof (proj2 (proj1 (getRange_bounds a b _ (conj (Zle_0_nat _) F)) s e) B) as G. rewrite G. fold len. fold len in B, F.
  assert (L0 : 0 <= len) by apply Zle_0_nat. unfold fitsL in F. fold len in F.
  assert (I64 : in64 s /\ in64 e).
  { inversion B; subst; cbn in Ba, Bb; [auto|split; [auto|destruct (s <? 0); w64]|split; [destruct (e <? 0); w64|auto]]. }
  destruct I64 as [Is Ie].
  assert (W : wrap64 (- len) = - len) by (apply wrap64_id; w64). rewrite W.
  assert (EQ : forall x y : Z, (x <? y) = true <-> x < y) by (intros; apply Z.ltb_lt).
  split; [intro H; rewrite (proj2 (EQ e s) H); reflexivity|].
  assert (NEQ : forall x y : Z, (x <? y) = false <-> y <= x) by (intros; apply Z.ltb_ge).
  repeat split; intro H; rewrite (proj2 (NEQ e s) H).
  - intros H1 H2. rewrite (proj2 (EQ s 0) H1). rewrite (proj2 (Z.leb_le 0 e) H2). reflexivity.
  - intros H1 H2. rewrite (proj2 (EQ s 0)) by lia. rewrite (proj2 (Z.leb_gt 0 e) H1), (proj2 (EQ s (- len)) H2). reflexivity.
  - intros H1 H2. rewrite (proj2 (NEQ s 0) H1), (proj2 (Z.leb_le len e) H2). reflexivity.
  - intros H1 H2. rewrite (proj2 (EQ s 0)) by lia. rewrite (proj2 (Z.leb_gt 0 e) H1), (proj2 (NEQ s (- len)) H2).
    rewrite (wrap64_id (e - s)) by w64. rewrite (wrap64_id (e - s + 1)) by w64.
    rewrite (proj2 (NEQ (e - s + 1) 0)) by lia. rewrite (wrap64_id (s + len)) by w64.
    rewrite copyLoop_ok by (unfold len; lia). eexists. split; [reflexivity|].
    replace (len + s) with (s + len) by lia.
    replace (len + e) with (s + len + Z.of_nat (Z.to_nat (e - s + 1)) - 1) by lia.
    apply section_of; unfold len; lia.
  - intros H1 H2. rewrite (proj2 (NEQ s 0) H1), (proj2 (Z.leb_gt len e) H2).
    rewrite (wrap64_id (e - s)) by w64. rewrite (wrap64_id (e - s + 1)) by w64.
    rewrite (proj2 (NEQ (e - s + 1) 0)) by lia. rewrite copyLoop_ok by (unfold len; lia).
    eexists. split; [reflexivity|].
    replace e with (s + Z.of_nat (Z.to_nat (e - s + 1)) - 1) at 1 by lia.
    apply section_of; unfold len; lia.
Qed.

(** C22: with both bounds of the same sign and inside the list, the slice is
    exactly the section between the denoted positions *)
Theorem C22_slice : forall (l : list A) a b s e, fitsL l -> bnd a -> bnd b -> bounds (Z.of_nat (length l)) a b s e ->
  let len := Z.of_nat (length l) in
  s <= e -> (s < 0 <-> e < 0) -> 0 <= position len s -> position len e < len ->
  exists r, slice l a b = SOk r /\ section l (position len s) (position len e) r.
Proof.
  intros l a b s e F Ba Bb B len H S1 P1 P2.
  destruct (slice_spec l a b s e F Ba Bb B) as [_ [_ [_ [_ [N P]]]]]. fold len in N, P. unfold position in *.
  destruct (s <? 0) eqn:E; [apply Z.ltb_lt in E|apply Z.ltb_ge in E].
  - destruct (e <? 0) eqn:E2; [apply Z.ltb_lt in E2; apply N; lia|apply Z.ltb_ge in E2; lia].
  - destruct (e <? 0) eqn:E2; [apply Z.ltb_lt in E2; lia|apply Z.ltb_ge in E2; apply P; lia].
Qed.
(** C22: a slice never crashes, and it is an error exactly if no bound is given,
    the bounds have different signs (start below end), or a bound is outside *)
Theorem C22_slice_error : forall (l : list A) a b, fitsL l -> bnd a -> bnd b ->
  let len := Z.of_nat (length l) in
  slice l a b <> SPanic /\
  (slice l a b = SErr <->
   (a = None /\ b = None) \/
   exists s e, bounds len a b s e /\ s <= e /\
     ((s < 0 /\ 0 <= e) \/ position len s < 0 \/ len <= position len e)).
Proof.
  intros l a b F Ba Bb len. pose proof (getRange_bounds a b len (conj (Zle_0_nat _) F)) as [G1 G2].
  destruct (getRange a b len) as [[s e]|] eqn:E.
  - pose proof (proj1 (G1 s e) eq_refl) as B.
    destruct (slice_spec l a b s e F Ba Bb B) as [C1 [C2 [C3 [C4 [C5 C6]]]]]. fold len in C1, C2, C3, C4, C5, C6.
    assert (U : forall s' e', bounds len a b s' e' -> s' = s /\ e' = e).
    { intros s' e' B'. apply G1 in B'. split; congruence. }
    assert (L0 : 0 <= len) by apply Zle_0_nat.
    assert (NN : ~ (a = None /\ b = None)) by (intros X; apply G2 in X; discriminate).
    destruct (Z_lt_le_dec e s) as [H|H].
    { rewrite (C1 H). split; [discriminate|]. split; [discriminate|]. intros [X|[s' [e' [X [Y _]]]]]; [tauto|].
      apply U in X. lia. }
    destruct (Z_lt_le_dec s 0) as [H0|H0].
    + destruct (Z_lt_le_dec e 0) as [He|He].
      * destruct (Z_lt_le_dec s (- len)) as [Hs|Hs].
        -- rewrite (C3 H He Hs). split; [discriminate|]. split; [|reflexivity]. intros _. right. exists s, e.
           split; [exact B|]. split; [exact H|]. right. left. unfold position.
           rewrite (proj2 (Z.ltb_lt s 0) H0). lia.
        -- destruct (C5 H He Hs) as [r [-> _]]. split; [discriminate|]. split; [discriminate|].
           intros [X|[s' [e' [X [Y Z]]]]]; [tauto|]. apply U in X. destruct X as [-> ->]. unfold position in Z.
           rewrite (proj2 (Z.ltb_lt s 0) H0), (proj2 (Z.ltb_lt e 0) He) in Z. lia.
      * rewrite (C2 H H0 He). split; [discriminate|]. split; [|reflexivity]. intros _. right. exists s, e. auto.
    + destruct (Z_lt_le_dec e len) as [He|He].
      * destruct (C6 H H0 He) as [r [-> _]]. split; [discriminate|]. split; [discriminate|].
        intros [X|[s' [e' [X [Y Z]]]]]; [tauto|]. apply U in X. destruct X as [-> ->]. unfold position in Z.
        rewrite (proj2 (Z.ltb_ge s 0) H0), (proj2 (Z.ltb_ge e 0)) in Z by lia. lia.
      * rewrite (C4 H H0 He). split; [discriminate|]. split; [|reflexivity]. intros _. right. exists s, e.
        split; [exact B|]. split; [exact H|]. right. right. unfold position.
        rewrite (proj2 (Z.ltb_ge e 0)) by lia. exact He.
  - pose proof (proj1 G2 eq_refl) as NN. unfold slice. fold len. rewrite E. split; [discriminate|]. split; auto.
Qed.
(** C22: bounds in reverse order (as numbers) select nothing, without any check.
    In particular a start position counted from the front with an end counted from
    the back, such as [2..-1], selects nothing although position 2 comes first. *)
Theorem C22_slice_empty : forall (l : list A) a b s e, fitsL l -> bnd a -> bnd b ->
  bounds (Z.of_nat (length l)) a b s e -> e < s -> slice l a b = SOk [].
Proof. intros l a b s e F Ba Bb B H. apply (slice_spec l a b s e F Ba Bb B). exact H. Qed.
End SL.
Theorem C22_mixed_bounds_refuted :
  slice [10; 20; 30] (Some 1) (Some (-1)) = SOk [] /\ slice [10; 20; 30] (Some (-2)) (Some 2) = SErr /\
  slice [10; 20; 30] (Some 99) (Some 98) = SOk [].
Proof. repeat split. Qed.
Example C22_slice_case : slice [10; 20; 30; 40] (Some (-3)) (Some (-2)) = SOk [20; 30] /\
  slice [10; 20; 30; 40] (Some 2) None = SOk [30; 40] /\ slice [10; 20; 30; 40] None (Some (-2)) = SOk [10; 20; 30] /\
  fitsL [10; 20; 30; 40] /\ section [10; 20; 30; 40] 1 2 [20; 30].
Proof. repeat split; try reflexivity; try (vm_compute; congruence). exists [10], [40]. repeat split. Qed.

(* ------------------------------------------------------------------ *)
(** * C22: substr *)
(** Specification: the bytes from position [i] up to, not including, [j] *)
Definition bytes_between (s : string) (i j : Z) (r : string) : Prop :=
  exists p q, s = (p +++ r +++ q)%string /\ Z.of_nat (String.length p) = i /\ Z.of_nat (String.length r) = j - i.

Lemma substring_section s : forall i n, (i + n <= String.length s)%nat ->
  exists p q, s = (p +++ String.substring i n s +++ q)%string /\ String.length p = i /\ String.length (String.substring i n s) = n.
Proof.
  induction s as [|c s IH]; intros [|i] n H; cbn in H.
  - destruct n; [|lia]. exists "", "". auto.
  - lia.
  - destruct n as [|n].
    + exists "", (String c s). auto.
    + destruct (IH 0%nat n ltac:(lia)) as [p [q [E [L1 L2]]]]. destruct p; [|discriminate].
      exists "", q. cbn. rewrite L2. repeat split. f_equal. exact E.
  - destruct (IH i n ltac:(lia)) as [p [q [E [L1 L2]]]]. exists (String c p), q. cbn. rewrite L1. repeat split; auto.
    f_equal. exact E.
Qed.

Theorem C22_substr : forall s a b, Z.of_nat (String.length s) <= max64 -> in64 a -> bnd b ->
  let len := Z.of_nat (String.length s) in
  let i := position len a in
  let j := match b with None => len | Some b => position len b end in
  (0 <= i <= j /\ j <= len ->
   exists r, func_substr (VStr s :: VInt a :: match b with None => [] | Some b => [VInt b] end) = Some (VStr r) /\
             bytes_between s i j r) /\
  (~ (0 <= i <= j /\ j <= len) ->
   func_substr (VStr s :: VInt a :: match b with None => [] | Some b => [VInt b] end) = None).
Proof.
  intros s a b F Ia Ib len i j.
  assert (E : func_substr (VStr s :: VInt a :: match b with None => [] | Some b => [VInt b] end) =
    option_map VStr (if len <? j then None else if i <? 0 then None else if j <? i then None
       else Some (String.substring (Z.to_nat i) (Z.to_nat (j - i)) s))).
  { assert (P : forall z, in64 z -> (if z <? 0 then wrap64 (len + z) else z) = position len z).
    { intros z Hz. unfold position. destruct (z <? 0) eqn:Ez; [|reflexivity]. apply Z.ltb_lt in Ez.
      apply wrap64_id. subst len. w64. }
    destruct b as [b|]; cbn [func_substr]; unfold substr; fold len; rewrite (P a Ia); [rewrite (P b Ib)|]; reflexivity. }
  rewrite E. clear E. split.
  - intros [[H1 H2] H3].
    rewrite (proj2 (Z.ltb_ge len j) H3), (proj2 (Z.ltb_ge i 0) H1), (proj2 (Z.ltb_ge j i) H2).
    eexists. split; [reflexivity|].
    destruct (substring_section s (Z.to_nat i) (Z.to_nat (j - i))) as [p [q [E [L1 L2]]]]; [unfold len in *; lia|].
    exists p, q. rewrite L1, L2. repeat split; [exact E|lia|lia].
  - intro H. destruct (len <? j) eqn:E1; [reflexivity|]. destruct (i <? 0) eqn:E2; [reflexivity|].
    destruct (j <? i) eqn:E3; [reflexivity|]. apply Z.ltb_ge in E1, E2, E3. exfalso. apply H. lia.
Qed.
Example C22_substr_case : func_substr [VStr "abcdef"; VInt (-4); VInt 4] = Some (VStr "cd").
Proof. reflexivity. Qed.

Print Assumptions C21_range_partial.
Print Assumptions C21_sound.
Print Assumptions C21_range_refuted.
Print Assumptions C22_slice.
Print Assumptions C22_slice_error.
Print Assumptions C22_slice_empty.
Print Assumptions C22_substr.
