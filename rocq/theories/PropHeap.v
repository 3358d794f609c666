(** C24, C25: effects of list operations on other references to the same list. *)
From Coq Require Import Lia Permutation.
From Verif Require Import Core ListFns PropList Heap.

Section P.
Variable A : Type.
Variable zero : A.
Variable grow : nat -> nat -> nat.
Notation heap := (heap A).

(** a slice of an existing array *)
Definition valid (h : heap) (s : slice) : Prop :=
  (s_arr s < length h)%nat /\ (s_off s + s_len s <= length (nth (s_arr s) h []))%nat.
(** [s] uses none of the cells [i .. j-1] of the array [a] *)
Definition avoids (s : slice) (a i j : nat) : Prop :=
  s_arr s <> a \/ (s_off s + s_len s <= i)%nat \/ (j <= s_off s)%nat.

Lemma array_update a l h b : (a < length h)%nat -> array A (updateA A a l h) b = if Nat.eqb a b then l else array A h b.
Proof.
  unfold array. revert a b. induction h as [|x h IH]; intros [|a] [|b] H; cbn in *; try lia; try reflexivity.
  apply IH. lia.
Qed.
Lemma update_length a l h : length (updateA A a l h) = length h.
Proof. revert a. induction h as [|x h IH]; intros [|a]; cbn; try reflexivity. rewrite IH. reflexivity. Qed.
Lemma overwrite_length i xs (l : list A) : (i + length xs <= length l)%nat -> length (overwrite A i xs l) = length l.
Proof. intro H. unfold overwrite. rewrite !app_length, firstn_length, skipn_length. lia. Qed.
Lemma read_length h s : valid h s -> length (read A h s) = s_len s.
Proof. intros [_ H]. unfold read, array. rewrite firstn_length, skipn_length. lia. Qed.

Lemma skipn_skipn' (l : list A) : forall a b, skipn a (skipn b l) = skipn (b + a) l.
Proof. induction l as [|x l IH]; intros a [|b]; cbn; try reflexivity; [apply skipn_nil|apply IH]. Qed.
Lemma overwrite_avoid i xs (l : list A) o n : (i + length xs <= length l)%nat ->
  (o + n <= i \/ i + length xs <= o)%nat ->
  firstn n (skipn o (overwrite A i xs l)) = firstn n (skipn o l).
Proof.
  intros H [B|B]; unfold overwrite.
  - rewrite skipn_app, firstn_app. rewrite skipn_length, firstn_length.
    replace (n - (Nat.min i (length l) - o))%nat with 0%nat by lia. rewrite firstn_O, app_nil_r.
    rewrite <- (firstn_skipn i l) at 2. rewrite skipn_app, firstn_app, skipn_length, firstn_length.
    replace (n - (Nat.min i (length l) - o))%nat with 0%nat by lia. rewrite firstn_O, app_nil_r. reflexivity.
  - rewrite app_assoc. rewrite skipn_app. rewrite app_length, firstn_length.
    replace (skipn o (firstn i l ++ xs)) with (@nil A)
      by (symmetry; apply skipn_all2; rewrite app_length, firstn_length; lia).
    cbn [app]. rewrite skipn_skipn'. f_equal. f_equal. lia.
Qed.
Lemma overwrite_read i xs (l : list A) o n : (i + length xs <= length l)%nat -> i = (o + n)%nat ->
  firstn (n + length xs) (skipn o (overwrite A i xs l)) = firstn n (skipn o l) ++ xs.
Proof.
  intros H ->. unfold overwrite. rewrite skipn_app, firstn_length.
  replace (o - Nat.min (o + n) (length l))%nat with 0%nat by lia. cbn [skipn].
  assert (E : skipn o (firstn (o + n) l) = firstn n (skipn o l)) by (rewrite firstn_skipn_comm; reflexivity).
  rewrite E, firstn_app. assert (L : length (firstn n (skipn o l)) = n) by (rewrite firstn_length, skipn_length; lia).
  rewrite L. replace (n + length xs - n)%nat with (length xs) by lia.
  rewrite firstn_all2 by lia. f_equal. rewrite firstn_app, Nat.sub_diag, firstn_O, app_nil_r. apply firstn_all.
Qed.

Lemma read_old h x s : (s_arr s < length h)%nat -> read A (h ++ [x]) s = read A h s.
Proof. intro H. unfold read, array. rewrite app_nth1 by exact H. reflexivity. Qed.

Notation APPEND := (append A zero grow).
Lemma append_spec h s xs h' r : valid h s -> APPEND h s xs = (h', r) ->
  valid h' r /\ read A h' r = read A h s ++ xs /\ s_len r = (s_len s + length xs)%nat /\
  (forall c, valid h c -> valid h' c /\
     (((s_len s + length xs <= capacity A h s)%nat -> avoids c (s_arr s) (s_off s + s_len s) (s_off s + s_len s + length xs)) ->
      read A h' c = read A h c)).
Proof.
  intros V E. unfold append in E. destruct (Nat.leb_spec (s_len s + length xs) (capacity A h s)) as [L|L]; inversion E; subst; clear E.
  - destruct V as [V1 V2]. unfold capacity in L. fold (array A h (s_arr s)) in V2.
    assert (B : (s_off s + s_len s + length xs <= length (array A h (s_arr s)))%nat) by lia.
    split; [|split; [|split]].
    + split; cbn; [rewrite update_length; exact V1|]. change (nth (s_arr s) ?q []) with (array A q (s_arr s)).
      rewrite array_update, Nat.eqb_refl by exact V1. rewrite overwrite_length by exact B. lia.
    + unfold read. cbn [s_arr s_off s_len]. rewrite array_update, Nat.eqb_refl by exact V1.
      apply overwrite_read; [exact B|reflexivity].
    + reflexivity.
    + intros c [C1 C2]. fold (array A h (s_arr c)) in C2. split.
      * split; [rewrite update_length; exact C1|]. change (nth (s_arr c) ?q []) with (array A q (s_arr c)).
        rewrite array_update by exact V1. destruct (Nat.eqb_spec (s_arr s) (s_arr c)) as [Q|Q]; [|exact C2].
        rewrite overwrite_length by exact B. rewrite Q. exact C2.
      * intro Av. specialize (Av L). unfold read. rewrite array_update by exact V1.
        destruct (Nat.eqb_spec (s_arr s) (s_arr c)) as [Q|Q]; [|reflexivity].
        rewrite <- Q. apply overwrite_avoid; [exact B|]. destruct Av as [Av|Av]; [congruence|exact Av].
  - assert (LR : length (read A h s) = s_len s) by (apply read_length, V).
    split; [|split; [|split]].
    + split; cbn; [rewrite app_length; cbn; lia|]. rewrite app_nth2, Nat.sub_diag by lia. cbn.
      rewrite !app_length, repeat_length. lia.
    + unfold read at 1. cbn [s_arr s_off s_len skipn]. unfold array. rewrite app_nth2, Nat.sub_diag by lia. cbn [nth].
      rewrite firstn_app. rewrite app_length, LR, Nat.sub_diag, firstn_O, app_nil_r. apply firstn_all2. rewrite app_length. lia.
    + reflexivity.
    + intros c C. split.
      * destruct C as [C1 C2]. split; [rewrite app_length; cbn; lia|]. rewrite app_nth1 by exact C1. exact C2.
      * intros _. apply read_old, C.
Qed.

(** The value of a concatenation is the concatenation, whatever the capacities are;
    the operands keep their values. *)
Theorem C25_value : forall h a b h' r, valid h a -> valid h b -> concatLists A zero grow h a b = (h', r) ->
  read A h' r = read A h a ++ read A h b /\ read A h' a = read A h a.
Proof.
  intros h a b h' r Va Vb E. destruct (append_spec h a (read A h b) h' r Va E) as [_ [E1 [_ F]]].
  split; [exact E1|]. apply (F a Va). intros _. right. left. lia.
Qed.
(** Lists not overlapping the spare cells behind the first operand keep their values;
    in particular all lists do if it has no spare capacity. *)
Theorem C25_others : forall h a b h' r c, valid h a -> valid h b -> valid h c -> concatLists A zero grow h a b = (h', r) ->
  (avoids c (s_arr a) (s_off a + s_len a) (s_off a + s_len a + s_len b) \/
   length (nth (s_arr a) h []) = (s_off a + s_len a)%nat /\ (0 < s_len b)%nat) ->
  read A h' c = read A h c.
Proof.
  intros h a b h' r c Va Vb Vc E H. destruct (append_spec h a (read A h b) h' r Va E) as [_ [_ [_ F]]].
  apply (F c Vc). rewrite (read_length h b Vb). intro L. destruct H as [H|[H P]]; [exact H|].
  unfold capacity, array in L. lia.
Qed.
(** ... which is the only case: two concatenations with the same list of three
    elements, as it comes from the parser (capacity 4), share their last cell.  The
    first result changes when the second expression is evaluated. *)
Theorem C25_refuted : forall (x y z p q : A), p <> q -> (forall o n, grow o n = (2 * o)%nat) ->
  exists h base h1 r1 h2 r2, buildList A zero grow [] [x; y; z] = (h, base) /\
    read A h base = [x; y; z] /\
    concatElem A zero grow h base p = (h1, r1) /\ read A h1 r1 = [x; y; z; p] /\
    concatElem A zero grow h1 base q = (h2, r2) /\ read A h2 r2 = [x; y; z; q] /\
    read A h2 r1 = [x; y; z; q] /\ read A h2 r1 <> read A h1 r1.
Proof.
  intros x y z p q N G.
  assert (B : buildList A zero grow [] [x; y; z] = ([[]; [x]; [x; y]; [x; y; z; zero]], mkSlice 3 0 3)).
  { unfold buildList, appendAll, append, capacity, read, array. cbn. do 4 (rewrite ?G; cbn). reflexivity. }
  do 6 eexists. split; [exact B|]. split; [reflexivity|]. split; [reflexivity|]. split; [reflexivity|].
  split; [reflexivity|]. split; [reflexivity|]. split; [reflexivity|]. cbn. congruence.
Qed.

(** reverse and sort work on the list itself: every other reference to it sees the
    new order. *)
Lemma writeBack_read h s l : valid h s -> length l = s_len s -> read A (writeBack A h s l) s = l.
Proof.
  intros [V1 V2] L. unfold writeBack, read. rewrite array_update, Nat.eqb_refl by exact V1.
  fold (array A h (s_arr s)) in V2.
  pose proof (overwrite_read (s_off s) l (array A h (s_arr s)) (s_off s) 0 ltac:(lia) ltac:(lia)) as H.
  cbn [firstn app Nat.add] in H. rewrite L in H. exact H.
Qed.
Theorem C24_inplace_refuted : forall h s h' r, valid h s -> reverseH A h s = (h', r) ->
  read A h' r = rev (read A h s) /\ read A h' s = rev (read A h s).
Proof.
  intros h s h' r V E. inversion E; subst. assert (X : reverseL (read A h r) = rev (read A h r)) by apply reverseL_rev.
  rewrite X. assert (read A (writeBack A h r (rev (read A h r))) r = rev (read A h r)).
  { apply writeBack_read; [exact V|]. rewrite rev_length. apply read_length, V. }
  auto.
Qed.
Theorem C24_sort_inplace_refuted : forall sorted h s h' r, valid h s -> (forall l, Permutation (sorted l) l) ->
  sortH A sorted h s = (h', r) -> read A h' r = sorted (read A h s) /\ read A h' s = sorted (read A h s).
Proof.
  intros sorted h s h' r V P E. inversion E; subst.
  assert (read A (writeBack A h r (sorted (read A h r))) r = sorted (read A h r)).
  { apply writeBack_read; [exact V|]. rewrite (Permutation_length (P _)). apply read_length, V. }
  auto.
Qed.
(** only lists in the same array are affected *)
Theorem C24_other_arrays : forall sorted h s c, valid h s -> valid h c -> (forall l, Permutation (sorted l) l) -> s_arr c <> s_arr s ->
  read A (fst (reverseH A h s)) c = read A h c /\ read A (fst (sortH A sorted h s)) c = read A h c.
Proof.
  intros sorted h s c V C P N. unfold reverseH, sortH, writeBack, read. cbn [fst].
  rewrite !array_update by apply V. destruct (Nat.eqb_spec (s_arr s) (s_arr c)); [congruence|]. auto.
Qed.
End P.
Example C25_nonvacuous : exists h a b, valid nat h a /\ valid nat h b /\ avoids b (s_arr a) (s_off a + s_len a) (s_off a + s_len a + s_len b) /\
  read nat h a = [1; 2]%nat /\ read nat h b = [7]%nat.
Proof.
  exists [[1; 2; 0; 0]; [7]]%nat, (mkSlice 0 0 2), (mkSlice 1 0 1).
  unfold valid, avoids. cbn. repeat split; try lia.
Qed.

(** the value of a concatenation with a list as first operand: another list is
    appended, nil changes nothing, anything else is appended as one element *)
Theorem C25_cases : forall lambdaText source l b,
  op_concat lambdaText source (VList l) VNil = OVal (VList l) /\
  (forall l', op_concat lambdaText source (VList l) (VList l') = OVal (VList (l ++ l'))) /\
  ((forall l', b <> VList l') -> b <> VNil ->
     exists n, op_concat lambdaText source (VList l) b = OVal (VList (l ++ [n])) /\
               (val n = b \/ exists z, b = VGoInt z /\ val n = VInt z)).
Proof.
  intros lambdaText source l b. split; [reflexivity|]. split; [reflexivity|]. intros N1 N2.
  exists (newNode b source). destruct b; try congruence; try (edestruct N1; reflexivity); split; try reflexivity; cbn; eauto.
Qed.

Print Assumptions C25_value.
Print Assumptions C25_others.
Print Assumptions C25_refuted.
Print Assumptions C24_inplace_refuted.
Print Assumptions C24_sort_inplace_refuted.
Print Assumptions C24_other_arrays.
Print Assumptions C25_cases.
