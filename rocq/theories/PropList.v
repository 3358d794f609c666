(** C23 (uniq, compact, intersect, contains, index, lastindex) and C24 (sort,
    reverse: the values; the effect on other references is in PropHeap.v). *)
From Coq Require Import Lia Permutation.
From Verif Require Import Core CoreFacts Str StrFacts DecSpec DeepEq DeepEqFacts Equiv EquivFacts PropNode Comparison PropCompare ListFns.

(* ------------------------------------------------------------------ *)
(** * Specification *)

(** [r] consists of exactly the elements of [l] that satisfy [P], in order *)
Inductive selects {A} (P : A -> Prop) : list A -> list A -> Prop :=
| SE_nil : selects P [] []
| SE_keep x l r : P x -> selects P l r -> selects P (x :: l) (x :: r)
| SE_drop x l r : ~ P x -> selects P l r -> selects P (x :: l) r.

(** [r] keeps an element of [l] unless an element that was kept before equals it *)
Inductive keeps_new {A} (E : A -> A -> Prop) : list A -> list A -> Prop :=
| KN_nil : keeps_new E [] []
| KN_keep l v r : keeps_new E l r -> (forall x, In x r -> ~ E v x) -> keeps_new E (l ++ [v]) (r ++ [v])
| KN_drop l v r x : keeps_new E l r -> In x r -> E v x -> keeps_new E (l ++ [v]) r.

(** [r] keeps exactly the elements of [l] no earlier element of [l] equals *)
Inductive first_occurrences {A} (E : A -> A -> Prop) : list A -> list A -> Prop :=
| FO_nil : first_occurrences E [] []
| FO_keep l v r : first_occurrences E l r -> (forall x, In x l -> ~ E v x) -> first_occurrences E (l ++ [v]) (r ++ [v])
| FO_drop l v r x : first_occurrences E l r -> In x l -> E v x -> first_occurrences E (l ++ [v]) r.

Inductive empty_value : value -> Prop :=
| EV_nil : empty_value VNil
| EV_str : empty_value (VStr "")
| EV_list : empty_value (VList [])
| EV_map : empty_value (VMap []).

(** [i] is the position of an element with [P], and the least / greatest such *)
Definition first_at {A} (P : A -> Prop) (l : list A) (i : nat) : Prop :=
  (exists x, nth_error l i = Some x /\ P x) /\ forall j x, (j < i)%nat -> nth_error l j = Some x -> ~ P x.
Definition last_at {A} (P : A -> Prop) (l : list A) (i : nat) : Prop :=
  (exists x, nth_error l i = Some x /\ P x) /\ forall j x, (i < j)%nat -> nth_error l j = Some x -> ~ P x.

(** [p] occurs in [s] at byte offset [i] *)
Definition occurs_at (p s : string) (i : nat) : Prop :=
  exists a b, s = (a +++ p +++ b)%string /\ String.length a = i.

Section C.
Variable lambdaText : value -> string.
Variable source : string.
Notation "a == b" := (op_cmp lambdaText "==" a b) (at level 70).
(** the operator == yields true *)
Definition eqT (x y : node) : Prop := (val x == val y) = Some (VBool true).

Lemma eqb_val_eqT a b : eqb_val lambdaText a b = true <-> (a == b) = Some (VBool true).
Proof.
  unfold eqb_val. rewrite op_eq. split; [|tauto]. intro H. split; [apply cmp_true_ok|]; exact H.
Qed.
Lemma existsb_eqT v acc :
  existsb (fun n => eqb_val lambdaText (val v) (val n)) acc = true <-> exists x, In x acc /\ eqT v x.
Proof.
  rewrite existsb_exists. split; intros [x [Hi He]]; exists x; (split; [exact Hi|]); apply eqb_val_eqT; exact He.
Qed.

(* ------------------------------------------------------------------ *)
(** * C23 *)

Lemma uniq_kn l : forall pre acc, keeps_new eqT pre acc -> keeps_new eqT (pre ++ l) (uniq_loop lambdaText l acc).
Proof.
  induction l as [|v l IH]; intros pre acc H; cbn [uniq_loop].
  - rewrite app_nil_r. exact H.
  - replace (pre ++ v :: l) with ((pre ++ [v]) ++ l) by (rewrite <- app_assoc; reflexivity).
    destruct (existsb _ acc) eqn:E; apply IH.
    + apply existsb_eqT in E. destruct E as [x [Hi He]]. exact (KN_drop _ _ _ _ _ H Hi He).
    + apply KN_keep; [exact H|]. intros x Hi He.
      assert (X : exists x, In x acc /\ eqT v x) by eauto. apply existsb_eqT in X. congruence.
Qed.

(** C23: uniq keeps, in order, every element that no kept element before it
    equals (==), for all lists of all values *)
Theorem C23_uniq : forall l, exists r,
  func_uniq lambdaText [VList l] = OVal (VList r) /\ keeps_new eqT l r.
Proof. intro l. eexists. split; [reflexivity|]. apply (uniq_kn l [] []). constructor. Qed.

Lemma kn_fo (E : node -> node -> Prop) (l r : list node) :
  (forall x y z, In x l -> In y l -> In z l -> E x y -> E y z -> E x z) ->
  keeps_new E l r -> first_occurrences E l r /\ (forall x, In x r -> In x l) /\
    (forall x, In x l -> In x r \/ exists y, In y r /\ E x y).
Proof.
  intros T H. induction H as [|l v r H IH N|l v r x H IH Hi He].
  - split; [constructor|]. split; intros x [].
  - destruct IH as [F [S C]].
    { intros x y z Hx Hy Hz. apply T; apply in_or_app; auto. }
    split; [|split].
    + apply FO_keep; [exact F|]. intros x Hx Hv. destruct (C x Hx) as [Hr|[y [Hy Hxy]]].
      * exact (N x Hr Hv).
      * apply (N y Hy). apply (T v x y); auto; apply in_or_app; auto; right; left; reflexivity.
    + intros x Hx. apply in_app_or in Hx. apply in_or_app. destruct Hx as [Hx|Hx]; auto.
    + intros x Hx. apply in_app_or in Hx. destruct Hx as [Hx|Hx].
      * destruct (C x Hx) as [Hr|[y [Hy Hxy]]]; [left; apply in_or_app; auto|].
        right. exists y. split; [apply in_or_app; auto|exact Hxy].
      * left. apply in_or_app. auto.
  - destruct IH as [F [S C]].
    { intros y z w Hx Hy Hz. apply T; apply in_or_app; auto. }
    split; [|split].
    + apply (FO_drop _ _ _ _ x); auto.
    + intros y Hy. apply in_or_app. left. auto.
    + intros y Hy. apply in_app_or in Hy. destruct Hy as [Hy|[<-|[]]]; [auto|].
      right. exists x. auto.
Qed.

Lemma alike_datum n : alike (val n) (val n) -> datum (val n).
Proof.
  induction n as [v an s t r IH] using node_indT. cbn [val]. intro A. inversion A; subst; try constructor.
  - cbn [node_subT] in IH. rewrite Forall_forall in *. intros x Hx. apply IH; [exact Hx|].
    destruct (In_nth_error _ _ Hx) as [i Hi]. eauto.
  - cbn [node_subT] in IH. rewrite Forall_forall in *. intros [k x] Hx. apply (IH _ Hx). cbn [snd]. eauto.
Qed.
Lemma datum_plain n : datum (val n) -> plainV (val n).
Proof.
  induction n as [v an s t r IH] using node_indT. cbn [val]. intro A. destruct A; constructor; cbn [node_subT] in IH;
    rewrite Forall_forall in *; intros x Hx; apply (IH _ Hx); auto; apply (H _ Hx).
Qed.
Lemma same_data_trans a b c : wfN a -> wfN b -> wfN c ->
  plainV (val a) -> plainV (val b) -> plainV (val c) ->
  same_data (val a) (val b) -> same_data (val b) (val c) -> same_data (val a) (val c).
Proof.
  intros Wa Wb Wc Pa Pb Pc H1 H2. apply C07_characterized; auto.
  apply (C07_transitive a b c); auto; apply C07_characterized; auto.
Qed.

(** C23: for lists whose values have the same types (at every depth) uniq keeps
    exactly the first occurrence of every value, and no two kept elements hold
    the same data *)
Theorem C23_uniq_first_partial : forall l,
  (forall x, In x l -> wfV (val x)) ->
  (forall x y, In x l -> In y l -> alike (val x) (val y)) ->
  exists r, func_uniq lambdaText [VList l] = OVal (VList r) /\
    first_occurrences (fun x y => same_data (val x) (val y)) l r /\
    (forall x, In x l -> exists y, In y r /\ same_data (val x) (val y)).
Proof.
  intros l W A. destruct (C23_uniq l) as [r [E K]]. exists r. split; [exact E|].
  assert (S : forall x y, In x l -> In y l -> (eqT x y <-> same_data (val x) (val y))).
  { intros x y Hx Hy. apply (proj1 (C18_structural lambdaText (val x) (val y) (W x Hx) (W y Hy) (A x y Hx Hy))). }
  assert (T : forall x y z, In x l -> In y l -> In z l -> eqT x y -> eqT y z -> eqT x z).
  { intros x y z Hx Hy Hz H1 H2. apply S in H1; auto. apply S in H2; auto. apply S; auto.
    apply (same_data_trans x y z); auto; try (apply datum_plain, alike_datum; auto); apply wfN_val; auto. }
  destruct (kn_fo eqT l r T K) as [F [Sub C]].
  assert (M : forall l0 r0, first_occurrences eqT l0 r0 -> (forall x, In x l0 -> In x l) ->
     first_occurrences (fun x y => same_data (val x) (val y)) l0 r0).
  { intros l0 r0 H. induction H as [|l0 v r0 H IH N|l0 v r0 x H IH Hi He]; intros I.
    - constructor.
    - apply FO_keep; [apply IH; intros; apply I, in_or_app; auto|].
      intros x Hx Hs. apply (N x Hx). apply S; auto; apply I, in_or_app; auto. right. left. reflexivity.
    - apply (FO_drop _ _ _ _ x); auto; [apply IH; intros; apply I, in_or_app; auto|].
      apply S; auto; apply I, in_or_app; auto. right. left. reflexivity. }
  split; [apply M; auto|].
  intros x Hx. destruct (C x Hx) as [Hr|[y [Hy He]]].
  - exists x. split; [exact Hr|]. apply S; auto. unfold eqT.
    apply C18_reflexive; [auto|]. apply alike_datum. auto.
  - exists y. split; [exact Hy|]. apply S; auto.
Qed.
(** In general "first occurrence" fails because == is not transitive: "1" is kept
    although it equals the 1 before it. *)
Theorem C23_uniq_first_refuted :
  let l := [newNode (VBool true) ""; newNode (VInt 1) ""; newNode (VStr "1") ""] in
  func_uniq lambdaText [VList l] = OVal (VList [newNode (VBool true) ""; newNode (VStr "1") ""]) /\
  (VStr "1" == VInt 1) = Some (VBool true).
Proof. split; reflexivity. Qed.

Lemma filter_selects {A} (f : A -> bool) (P : A -> Prop) l :
  (forall x, In x l -> (f x = true <-> P x)) -> selects P l (filter f l).
Proof.
  induction l as [|x l IH]; intro H; cbn [filter]; [constructor|].
  assert (R : selects P l (filter f l)) by (apply IH; intros; apply H; right; assumption).
  destruct (f x) eqn:E.
  - apply SE_keep; [|exact R]. apply H; [left; reflexivity|exact E].
  - apply SE_drop; [|exact R]. intro X. apply H in X; [congruence|left; reflexivity].
Qed.
Lemma nonempty_spec n : nonempty n = true <-> ~ empty_value (val n).
Proof.
  unfold nonempty. destruct (val n) as [| | | | |s|l|m| | |].
  - split; [discriminate|]. intro H. exfalso. apply H. constructor.
  - split; [|reflexivity]. intros _ H. inversion H.
  - split; [|reflexivity]. intros _ H. inversion H.
  - split; [|reflexivity]. intros _ H. inversion H.
  - split; [|reflexivity]. intros _ H. inversion H.
  - destruct s; cbn; split; try discriminate; try reflexivity.
    + intro H. exfalso. apply H. constructor.
    + intros _ H. inversion H.
  - destruct l; cbn; split; try discriminate; try reflexivity.
    + intro H. exfalso. apply H. constructor.
    + intros _ H. inversion H.
  - destruct m; cbn; split; try discriminate; try reflexivity.
    + intro H. exfalso. apply H. constructor.
    + intros _ H. inversion H.
  - split; [|reflexivity]. intros _ H. inversion H.
  - split; [|reflexivity]. intros _ H. inversion H.
  - split; [|reflexivity]. intros _ H. inversion H.
Qed.
(** C23: compact drops exactly nil, "", [] and {} *)
Theorem C23_compact : forall l, exists r,
  func_compact [VList l] = OVal (VList r) /\ selects (fun n => ~ empty_value (val n)) l r.
Proof.
  intro l. eexists. split; [reflexivity|]. apply filter_selects. intros x _. apply nonempty_spec.
Qed.

(** the list arguments of intersect: nil arguments are ignored *)
Inductive list_args : list value -> list (list node) -> Prop :=
| LA_nil : list_args [] []
| LA_list l a ls : list_args a ls -> list_args (VList l :: a) (l :: ls)
| LA_none a ls : list_args a ls -> list_args (VNil :: a) ls.

Lemma list_args_or a : (exists ls, list_args a ls) \/ (exists v, In v a /\ v <> VNil /\ forall l, v <> VList l).
Proof.
  induction a as [|v a [[ls IH]|[w [Hi Hw]]]].
  - left. exists []. constructor.
  - destruct v; try (right; eexists; split; [left; reflexivity|split; [discriminate|intro; discriminate]]; fail).
    + left. exists ls. constructor. exact IH.
    + left. exists (l :: ls). constructor. exact IH.
  - right. exists w. split; [right; exact Hi|exact Hw].
Qed.

Lemma selects_weaken {A} (P Q : A -> Prop) l r : (forall x, In x l -> (P x <-> Q x)) -> selects P l r -> selects Q l r.
Proof.
  intros H S. induction S as [|x l r Hx S IH|x l r Hx S IH]; [constructor| |].
  - apply SE_keep; [apply H; [left; reflexivity|exact Hx]|apply IH; intros; apply H; right; assumption].
  - apply SE_drop; [intro X; apply Hx; apply H; [left; reflexivity|exact X]|apply IH; intros; apply H; right; assumption].
Qed.
Lemma selects_trans {A} (P Q : A -> Prop) l r : selects P l r -> forall r', selects Q r r' ->
  selects (fun x => P x /\ Q x) l r'.
Proof.
  intros S. induction S as [|x l r Hx S IH|x l r Hx S IH]; intros r' T.
  - inversion T. constructor.
  - inversion T; subst.
    + apply SE_keep; [split; assumption|apply IH; assumption].
    + apply SE_drop; [tauto|apply IH; assumption].
  - apply SE_drop; [tauto|apply IH; assumption].
Qed.

Lemma intersect_some a ls : list_args a ls -> forall i res, exists r,
  intersect_loop lambdaText a (fun _ => false) i (Some res) = OVal (VList r) /\
  selects (fun e => forall l, In l ls -> exists n, In n l /\ eqT e n) res r.
Proof.
  intro H. induction H as [|l a ls H IH|a ls H IH]; intros i res; cbn [intersect_loop].
  - exists res. split; [reflexivity|].
    replace res with (filter (fun _ => true) res) at 2 by (clear; induction res; cbn; congruence).
    apply filter_selects. intros x _. split; [intros _ l []|reflexivity].
  - destruct (IH (S i) (filter (fun e => existsb (fun n => eqb_val lambdaText (val e) (val n)) l) res)) as [r [E S]].
    exists r. split; [exact E|].
    assert (F : selects (fun e => exists n, In n l /\ eqT e n) res
                  (filter (fun e => existsb (fun n => eqb_val lambdaText (val e) (val n)) l) res)).
    { apply filter_selects. intros x _. apply existsb_eqT. }
    apply (selects_weaken (fun x => (exists n, In n l /\ eqT x n) /\ forall l', In l' ls -> exists n, In n l' /\ eqT x n)).
    + intros x _. split.
      * intros [H1 H2] l' [<-|Hl]; auto.
      * intro K. split; [apply K; left; reflexivity|]. intros l' Hl. apply K. right. exact Hl.
    + exact (selects_trans _ _ _ _ F _ S).
  - apply IH.
Qed.

(** C23: intersect yields the elements of the first list that have an equal
    element (==) in every other list; nil arguments are ignored (no argument is a
    nil slice, see [C23_intersect_refuted]) *)
Theorem C23_intersect_partial : forall args ls, list_args args ls -> exists r,
  func_intersect lambdaText args (fun _ => false) = OVal (VList r) /\
  match ls with
  | [] => r = []
  | l0 :: others => selects (fun e => forall l, In l others -> exists n, In n l /\ eqT e n) l0 r
  end.
Proof.
  intros a ls H. unfold func_intersect. generalize 0%nat. induction H as [|l a ls H IH|a ls H IH]; intro i; cbn [intersect_loop].
  - exists []. split; reflexivity.
  - apply intersect_some. exact H.
  - apply IH.
Qed.
(** C23: anything that is neither a list nor nil is rejected *)
Theorem C23_intersect_error : forall args ns v, In v args -> v <> VNil -> (forall l, v <> VList l) ->
  func_intersect lambdaText args ns = OErr.
Proof.
  intros args ns v Hi Hn Hl. unfold func_intersect. generalize 0%nat, (@None (list node)).
  induction args as [|w a IH]; [destruct Hi|]. intros i res. destruct Hi as [->|Hi].
  - destruct v; try reflexivity; [congruence|exfalso; eapply Hl; reflexivity].
  - cbn [intersect_loop]. destruct w; try reflexivity; [apply IH; exact Hi|].
    destruct res; apply IH; exact Hi.
Qed.
(** An empty first list given as a nil slice (the result of uniq([]) or
    compact([])) is taken as "not set yet": intersect(uniq([]), [1]) = [1]. *)
Theorem C23_intersect_refuted :
  let one := newNode (VInt 1) "" in
  func_intersect lambdaText [VList []; VList [one]] (fun i => Nat.eqb i 0) = OVal (VList [one]) /\
  func_intersect lambdaText [VList []; VList [one]] (fun _ => false) = OVal (VList []).
Proof. split; reflexivity. Qed.

(** ** contains and index on lists *)
Lemma index_first l e : forall i,
  (index_loop lambdaText l e true i (-1) = -1 /\ forall x, In x l -> (val x == e) <> Some (VBool true)) \/
  (exists k, index_loop lambdaText l e true i (-1) = i + Z.of_nat k /\ first_at (fun x => (val x == e) = Some (VBool true)) l k).
Proof.
  induction l as [|v l IH]; intro i; cbn [index_loop].
  - left. split; [reflexivity|]. intros x [].
  - destruct (eqb_val lambdaText (val v) e) eqn:E.
    + right. exists 0%nat. split; [lia|]. apply eqb_val_eqT in E. split; [exists v; split; [reflexivity|exact E]|].
      intros j x Hj. lia.
    + assert (N : (val v == e) <> Some (VBool true)) by (intro X; apply eqb_val_eqT in X; congruence).
      destruct (IH (i + 1)) as [[H1 H2]|[k [H1 [H2 H3]]]].
      * left. split; [exact H1|]. intros x [<-|Hx]; auto.
      * right. exists (S k). split; [lia|]. split; [exact H2|].
        intros [|j] x Hj Hx; [cbn in Hx; injection Hx; intros <-; exact N|]. apply (H3 j); [lia|exact Hx].
Qed.
Lemma index_last l e : forall i found,
  (index_loop lambdaText l e false i found = found /\ forall x, In x l -> (val x == e) <> Some (VBool true)) \/
  (exists k, index_loop lambdaText l e false i found = i + Z.of_nat k /\ last_at (fun x => (val x == e) = Some (VBool true)) l k).
Proof.
  induction l as [|v l IH]; intros i found; cbn [index_loop].
  - left. split; [reflexivity|]. intros x [].
  - destruct (eqb_val lambdaText (val v) e) eqn:E.
    + apply eqb_val_eqT in E. right. destruct (IH (i + 1) i) as [[H1 H2]|[k [H1 [H2 H3]]]].
      * exists 0%nat. split; [lia|]. split; [exists v; split; [reflexivity|exact E]|].
        intros [|j] x Hj Hx; [lia|]. apply H2. eapply nth_error_In. exact Hx.
      * exists (S k). split; [lia|]. split; [exact H2|].
        intros [|j] x Hj Hx; [lia|]. apply (H3 j); [lia|exact Hx].
    + assert (N : (val v == e) <> Some (VBool true)) by (intro X; apply eqb_val_eqT in X; congruence).
      destruct (IH (i + 1) found) as [[H1 H2]|[k [H1 [H2 H3]]]].
      * left. split; [exact H1|]. intros x [<-|Hx]; auto.
      * right. exists (S k). split; [lia|]. split; [exact H2|].
        intros [|j] x Hj Hx; [lia|]. apply (H3 j); [lia|exact Hx].
Qed.

(** C23: contains(list, e) for e not nil is true iff some element equals e *)
Theorem C23_contains_list : forall l e, e <> VNil -> exists r,
  func_contains lambdaText [VList l; e] = OVal (VBool r) /\
  (r = true <-> exists x, In x l /\ (val x == e) = Some (VBool true)).
Proof.
  intros l e N. exists (existsb (fun n => eqb_val lambdaText (val n) e) l). split.
  - destruct e; try reflexivity. congruence.
  - rewrite existsb_exists. split; intros [x [Hi He]]; exists x; (split; [exact Hi|]); apply eqb_val_eqT; exact He.
Qed.
(** C23: index (lastindex) yields the position of the first (last) element that
    equals e, and -1 iff there is none *)
Theorem C23_index_list : forall l e, e <> VNil -> exists i,
  func_index lambdaText true [VList l; e] = OVal (VInt i) /\
  (i = -1 <-> forall x, In x l -> (val x == e) <> Some (VBool true)) /\
  (i <> -1 -> 0 <= i /\ first_at (fun x => (val x == e) = Some (VBool true)) l (Z.to_nat i)).
Proof.
  intros l e N. exists (index_loop lambdaText l e true 0 (-1)). split; [destruct e; try reflexivity; congruence|].
  destruct (index_first l e 0) as [[H1 H2]|[k [H1 H2]]]; rewrite H1.
  - split; [tauto|congruence].
  - split.
    + split; [lia|]. intro X. exfalso. destruct H2 as [[x [Hx He]] _]. exact (X x (nth_error_In _ _ Hx) He).
    + intros _. split; [lia|]. rewrite Z.add_0_l, Nat2Z.id. exact H2.
Qed.
Theorem C23_lastindex_list : forall l e, e <> VNil -> exists i,
  func_index lambdaText false [VList l; e] = OVal (VInt i) /\
  (i = -1 <-> forall x, In x l -> (val x == e) <> Some (VBool true)) /\
  (i <> -1 -> 0 <= i /\ last_at (fun x => (val x == e) = Some (VBool true)) l (Z.to_nat i)).
Proof.
  intros l e N. exists (index_loop lambdaText l e false 0 (-1)). split; [destruct e; try reflexivity; congruence|].
  destruct (index_last l e 0 (-1)) as [[H1 H2]|[k [H1 H2]]]; rewrite H1.
  - split; [tauto|congruence].
  - split.
    + split; [lia|]. intro X. exfalso. destruct H2 as [[x [Hx He]] _]. exact (X x (nth_error_In _ _ Hx) He).
    + intros _. split; [lia|]. rewrite Z.add_0_l, Nat2Z.id. exact H2.
Qed.
(** nil is never found, although ~ == ~ holds *)
Theorem C23_nil_refuted : forall l,
  func_contains lambdaText [VList l; VNil] = OVal (VBool false) /\
  func_index lambdaText true [VList l; VNil] = OVal (VGoInt (-1)) /\
  func_index lambdaText false [VList l; VNil] = OVal (VGoInt (-1)) /\ (VNil == VNil) = Some (VBool true).
Proof. repeat split. Qed.

(** ** contains and index on strings *)
Lemma prefixL_spec p s : prefixL p s = true <-> exists b, s = p ++ b.
Proof.
  revert s. induction p as [|c p IH]; intro s; cbn [prefixL].
  - split; [intros _; exists s; reflexivity|reflexivity].
  - destruct s as [|d s]; [split; [discriminate|intros [b H]; discriminate H]|].
    rewrite andb_true_iff, IH. split.
    + intros [H1 [b H2]]. apply Ascii.eqb_eq in H1. subst. exists b. reflexivity.
    + intros [b H]. cbn in H. injection H as -> ->. split; [apply Ascii.eqb_refl|eauto].
Qed.
Definition occL (p s : list ascii) (i : nat) : Prop := exists a b, s = a ++ p ++ b /\ length a = i.
Lemma occL_0 p s : occL p s 0 <-> prefixL p s = true.
Proof.
  rewrite prefixL_spec. split.
  - intros [[|c a] [b [-> H]]]; [exists b; reflexivity|discriminate H].
  - intros [b ->]. exists [], b. split; reflexivity.
Qed.
Lemma occL_S p c s i : occL p (c :: s) (S i) <-> occL p s i.
Proof.
  split.
  - intros [[|d a] [b [H L]]]; [discriminate L|]. cbn in H. injection H as -> ->. injection L as L. exists a, b. auto.
  - intros [a [b [-> L]]]. exists (c :: a), b. cbn. auto.
Qed.
Lemma occL_nil p i : occL p [] (S i) -> False.
Proof. intros [[|d a] [b [H L]]]; discriminate. Qed.
Lemma indexL_spec p s : forall i,
  (indexL p s i = -1 /\ forall k, ~ occL p s k) \/
  (exists k, indexL p s i = i + Z.of_nat k /\ occL p s k /\ forall j, (j < k)%nat -> ~ occL p s j).
Proof.
  induction s as [|c s IH]; intro i; cbn [indexL]; destruct (prefixL p _) eqn:E.
  - right. exists 0%nat. split; [lia|]. split; [apply occL_0; exact E|]. intros j Hj. lia.
  - left. split; [reflexivity|]. intros [|k] H; [apply occL_0 in H; congruence|exact (occL_nil _ _ H)].
  - right. exists 0%nat. split; [lia|]. split; [apply occL_0; exact E|]. intros j Hj. lia.
  - destruct (IH (i + 1)) as [[H1 H2]|[k [H1 [H2 H3]]]].
    + left. split; [exact H1|]. intros [|k] H; [apply occL_0 in H; congruence|]. apply (proj1 (occL_S _ _ _ _)) in H. exact (H2 _ H).
    + right. exists (S k). split; [lia|]. split; [apply occL_S; exact H2|].
      intros [|j] Hj H; [apply occL_0 in H; congruence|]. apply (proj1 (occL_S _ _ _ _)) in H. apply (H3 j); [lia|exact H].
Qed.
Lemma lastIndexL_spec p s : forall i best,
  (lastIndexL p s i best = best /\ forall k, ~ occL p s k) \/
  (exists k, lastIndexL p s i best = i + Z.of_nat k /\ occL p s k /\ forall j, (k < j)%nat -> ~ occL p s j).
Proof.
  induction s as [|c s IH]; intros i best; cbn [lastIndexL]; destruct (prefixL p _) eqn:E.
  - right. exists 0%nat. split; [lia|]. split; [apply occL_0; exact E|]. intros [|j] Hj H; [lia|exact (occL_nil _ _ H)].
  - left. split; [reflexivity|]. intros [|k] H; [apply occL_0 in H; congruence|exact (occL_nil _ _ H)].
  - right. destruct (IH (i + 1) i) as [[H1 H2]|[k [H1 [H2 H3]]]].
    + exists 0%nat. split; [lia|]. split; [apply occL_0; exact E|].
      intros [|j] Hj H; [lia|]. apply (proj1 (occL_S _ _ _ _)) in H. exact (H2 _ H).
    + exists (S k). split; [lia|]. split; [apply occL_S; exact H2|].
      intros [|j] Hj H; [lia|]. apply (proj1 (occL_S _ _ _ _)) in H. apply (H3 j); [lia|exact H].
  - destruct (IH (i + 1) best) as [[H1 H2]|[k [H1 [H2 H3]]]].
    + left. split; [exact H1|]. intros [|k] H; [apply occL_0 in H; congruence|]. apply (proj1 (occL_S _ _ _ _)) in H. exact (H2 _ H).
    + right. exists (S k). split; [lia|]. split; [apply occL_S; exact H2|].
      intros [|j] Hj H; [lia|]. apply (proj1 (occL_S _ _ _ _)) in H. apply (H3 j); [lia|exact H].
Qed.
Lemma ofchars_chars s : ofchars (chars s) = s.
Proof. apply string_of_list_ascii_of_string. Qed.
Lemma chars_ofchars l : chars (ofchars l) = l.
Proof. apply list_ascii_of_string_of_list_ascii. Qed.
Lemma chars_app a b : chars (a +++ b)%string = chars a ++ chars b.
Proof. induction a as [|c a IH]; cbn; [reflexivity|]. f_equal. exact IH. Qed.
Lemma ofchars_app a b : ofchars (a ++ b) = (ofchars a +++ ofchars b)%string.
Proof. induction a as [|c a IH]; cbn; [reflexivity|]. f_equal. exact IH. Qed.
Lemma chars_len s : length (chars s) = String.length s.
Proof. induction s as [|c s IH]; cbn; [reflexivity|]. f_equal. exact IH. Qed.
Lemma occ_chars p s i : occL (chars p) (chars s) i <-> occurs_at p s i.
Proof.
  split.
  - intros [a [b [H L]]]. exists (ofchars a), (ofchars b). split.
    + rewrite <- (ofchars_chars s), H, !ofchars_app, ofchars_chars. reflexivity.
    + rewrite <- chars_len, chars_ofchars. exact L.
  - intros [a [b [-> L]]]. exists (chars a), (chars b). rewrite !chars_app, chars_len. auto.
Qed.

(** the text that is searched for: a text itself, the decimal form of an integer,
    true or false *)
Inductive search_text : value -> string -> Prop :=
| ST_str s : search_text (VStr s) s
| ST_int z : search_text (VInt z) (itoa z)
| ST_bool (b : bool) : search_text (VBool b) (if b then "true" else "false").
Lemma search_text_fn e p : search_text e p -> searchText e = Some p.
Proof. intro H. destruct H; reflexivity. Qed.

(** C23: contains on texts: the pattern occurs at some position *)
Theorem C23_contains_text : forall s e p, search_text e p -> exists r,
  func_contains lambdaText [VStr s; e] = OVal (VBool r) /\ (r = true <-> exists i, occurs_at p s i).
Proof.
  intros s e p H. exists (strContains s p). split.
  - cbn [func_contains]. rewrite (search_text_fn _ _ H). destruct H; reflexivity.
  - unfold strContains, strIndex. rewrite Z.leb_le. destruct (indexL_spec (chars p) (chars s) 0) as [[H1 H2]|[k [H1 [H2 _]]]]; rewrite H1.
    + split; [lia|]. intros [i Hi]. apply occ_chars in Hi. exfalso. exact (H2 _ Hi).
    + split; [|lia]. intros _. exists k. apply occ_chars. exact H2.
Qed.
(** C23: index/lastindex on texts: least/greatest position of an occurrence *)
Theorem C23_index_text : forall s e p, search_text e p -> exists i,
  func_index lambdaText true [VStr s; e] = OVal (VInt i) /\
  (i = -1 <-> forall k, ~ occurs_at p s k) /\
  (i <> -1 -> 0 <= i /\ occurs_at p s (Z.to_nat i) /\ forall j, (j < Z.to_nat i)%nat -> ~ occurs_at p s j).
Proof.
  intros s e p H. exists (strIndex s p). split.
  - cbn [func_index]. rewrite (search_text_fn _ _ H). destruct H; reflexivity.
  - unfold strIndex. destruct (indexL_spec (chars p) (chars s) 0) as [[H1 H2]|[k [H1 [H2 H3]]]]; rewrite H1.
    + split; [|congruence]. split; [|reflexivity]. intros _ k X. apply (H2 k). apply occ_chars. exact X.
    + rewrite Z.add_0_l, Nat2Z.id. split; [split; [lia|]|].
      * intro X. exfalso. apply (X k). apply occ_chars. exact H2.
      * intros _. split; [lia|]. split; [apply occ_chars; exact H2|]. intros j Hj X. apply (H3 j Hj). apply occ_chars. exact X.
Qed.
Theorem C23_lastindex_text : forall s e p, search_text e p -> exists i,
  func_index lambdaText false [VStr s; e] = OVal (VInt i) /\
  (i = -1 <-> forall k, ~ occurs_at p s k) /\
  (i <> -1 -> 0 <= i /\ occurs_at p s (Z.to_nat i) /\ forall j, (Z.to_nat i < j)%nat -> ~ occurs_at p s j).
Proof.
  intros s e p H. exists (strLastIndex s p). split.
  - cbn [func_index]. rewrite (search_text_fn _ _ H). destruct H; reflexivity.
  - unfold strLastIndex. destruct (lastIndexL_spec (chars p) (chars s) 0 (-1)) as [[H1 H2]|[k [H1 [H2 H3]]]]; rewrite H1.
    + split; [|congruence]. split; [|reflexivity]. intros _ k X. apply (H2 k). apply occ_chars. exact X.
    + rewrite Z.add_0_l, Nat2Z.id. split; [split; [lia|]|].
      * intro X. exfalso. apply (X k). apply occ_chars. exact H2.
      * intros _. split; [lia|]. split; [apply occ_chars; exact H2|]. intros j Hj X. apply (H3 j Hj). apply occ_chars. exact X.
Qed.

(** C23: the three functions agree with each other on lists and texts *)
Theorem C23_agree : forall x e b i j,
  func_contains lambdaText [x; e] = OVal (VBool b) ->
  func_index lambdaText true [x; e] = OVal (VInt i) ->
  func_index lambdaText false [x; e] = OVal (VInt j) ->
  (b = true <-> i <> -1) /\ (b = true <-> j <> -1) /\ (b = true -> i <= j).
Proof.
  intros x e b i j Hb Hi Hj. destruct x as [| | | | |s|l| | | |]; try discriminate Hi.
  - destruct (searchText e) as [p|] eqn:E; [|cbn [func_index] in Hi; rewrite E in Hi; discriminate Hi].
    assert (S : search_text e p) by (destruct e; try discriminate E; injection E as <-; constructor).
    destruct (C23_contains_text s e p S) as [b' [Hb' B]]. destruct (C23_index_text s e p S) as [i' [Hi' [I1 I2]]].
    destruct (C23_lastindex_text s e p S) as [j' [Hj' [J1 J2]]].
    assert (b' = b) by congruence. assert (i' = i) by congruence. assert (j' = j) by congruence. subst b' i' j'.
    assert (BI : b = true <-> i <> -1).
    { rewrite B. split.
      - intros [k Hk] X. apply (proj1 I1 X k Hk).
      - intro X. destruct (I2 X) as [_ [X2 _]]. eauto. }
    assert (BJ : b = true <-> j <> -1).
    { rewrite B. split.
      - intros [k Hk] X. apply (proj1 J1 X k Hk).
      - intro X. destruct (J2 X) as [_ [X2 _]]. eauto. }
    split; [exact BI|]. split; [exact BJ|]. intro T.
    destruct (I2 (proj1 BI T)) as [I3 [I4 I5]]. destruct (J2 (proj1 BJ T)) as [J3 [J4 J5]].
    destruct (Z.le_gt_cases i j) as [|G]; [assumption|]. exfalso. apply (I5 (Z.to_nat j)); [lia|exact J4].
  - destruct (match e with VNil => true | _ => false end) eqn:N; [destruct e; discriminate|].
    assert (NN : e <> VNil) by (intro X; subst; discriminate).
    destruct (C23_contains_list l e NN) as [b' [Hb' B]]. destruct (C23_index_list l e NN) as [i' [Hi' [I1 I2]]].
    destruct (C23_lastindex_list l e NN) as [j' [Hj' [J1 J2]]].
    assert (b' = b) by congruence. assert (i' = i) by congruence. assert (j' = j) by congruence. subst b' i' j'.
    assert (BI : b = true <-> i <> -1).
    { rewrite B. split.
      - intros [k [Hk1 Hk2]] X. apply (proj1 I1 X k Hk1 Hk2).
      - intro X. destruct (I2 X) as [_ [[y [Y1 Y2]] _]]. exists y. split; [eapply nth_error_In; exact Y1|exact Y2]. }
    assert (BJ : b = true <-> j <> -1).
    { rewrite B. split.
      - intros [k [Hk1 Hk2]] X. apply (proj1 J1 X k Hk1 Hk2).
      - intro X. destruct (J2 X) as [_ [[y [Y1 Y2]] _]]. exists y. split; [eapply nth_error_In; exact Y1|exact Y2]. }
    split; [exact BI|]. split; [exact BJ|]. intro T.
    destruct (I2 (proj1 BI T)) as [I3 [I4 I5]]. destruct (J2 (proj1 BJ T)) as [J3 [[y [J4 J6]] J5]].
    destruct (Z.le_gt_cases i j) as [|G]; [assumption|]. exfalso. apply (I5 (Z.to_nat j) y); [lia|exact J4|exact J6].
Qed.

(** non-vacuity *)
Example C23_case :
  let n z := newNode (VInt z) "" in
  func_uniq lambdaText [VList [n 1; n 2; n 1; n 3; n 2]] = OVal (VList [n 1; n 2; n 3]) /\
  func_intersect lambdaText [VList [n 1; n 2; n 3]; VNil; VList [n 3; n 1]] (fun _ => false) = OVal (VList [n 1; n 3]) /\
  func_index lambdaText true [VList [n 1; n 2; n 1]; VInt 1] = OVal (VInt 0) /\
  func_index lambdaText false [VList [n 1; n 2; n 1]; VInt 1] = OVal (VInt 2) /\
  func_index lambdaText false [VStr "foobarfoo"; VStr "foo"] = OVal (VInt 6) /\
  list_args [VList [n 1; n 2; n 3]; VNil; VList [n 3; n 1]] [[n 1; n 2; n 3]; [n 3; n 1]] /\
  (forall x y, In x [n 1; n 2; n 1] -> In y [n 1; n 2; n 1] -> alike (val x) (val y)).
Proof.
  repeat split; try reflexivity; [repeat constructor|].
  intros x y Hx Hy. cbn in Hx, Hy.
  repeat (destruct Hx as [<-|Hx]; [repeat (destruct Hy as [<-|Hy]; [constructor|]); destruct Hy|]). destruct Hx.
Qed.
End C.

(* ------------------------------------------------------------------ *)
(** * C24 *)

(** every pair of elements in the order of the list satisfies [R] *)
Inductive ordered_pairs {A} (R : A -> A -> Prop) : list A -> Prop :=
| OP_nil : ordered_pairs R []
| OP_cons x l : (forall y, In y l -> R x y) -> ordered_pairs R l -> ordered_pairs R (x :: l).

Lemma sinsert_perm less x l r : sinsert less x l = Some r -> Permutation (x :: l) r.
Proof.
  revert r. induction l as [|y l IH]; intros r H; cbn [sinsert] in H.
  - injection H as <-. apply Permutation_refl.
  - destruct (less x y) as [[|]|]; [|injection H as <-; apply Permutation_refl|discriminate].
    destruct (sinsert less x l) as [r'|] eqn:E; [|discriminate]. injection H as <-.
    apply perm_trans with (y :: x :: l); [apply perm_swap|]. constructor. apply IH. reflexivity.
Qed.
Lemma sort_perm less l : forall racc r, sort_loop less l racc = Some r -> Permutation (racc ++ l) r.
Proof.
  induction l as [|x l IH]; intros racc r H; cbn [sort_loop] in H.
  - injection H as <-. rewrite app_nil_r. apply Permutation_rev.
  - destruct (sinsert less x racc) as [racc'|] eqn:E; [|discriminate].
    apply IH in H. apply perm_trans with (racc' ++ l); [|exact H].
    apply perm_trans with ((x :: racc) ++ l).
    + cbn. apply Permutation_sym. apply Permutation_middle.
    + apply Permutation_app_tail. apply sinsert_perm with less. exact E.
Qed.

(** a comparison that is defined and a strict weak order on the elements *)
Definition strict_weak (L : list node) (less : node -> node -> option bool) (lt : node -> node -> Prop) : Prop :=
  (forall x y, In x L -> In y L -> exists b, less x y = Some b /\ (b = true <-> lt x y)) /\
  (forall x, In x L -> ~ lt x x) /\
  (forall x y z, In x L -> In y L -> In z L -> lt x y -> lt y z -> lt x z) /\
  (forall x y z, In x L -> In y L -> In z L -> ~ lt x y -> ~ lt y z -> ~ lt x z).

(** the elements of [l] tied with [x], in order *)
Definition tied (lt : node -> node -> Prop) (x y : node) : Prop := ~ lt x y /\ ~ lt y x.

Section Sort.
Variables (L : list node) (less : node -> node -> option bool) (lt : node -> node -> Prop).
Hypothesis SW : strict_weak L less lt.

(** reversed accumulator: every later element is not greater *)
Lemma sinsert_sorted x : In x L -> forall racc, (forall y, In y racc -> In y L) ->
  ordered_pairs (fun a b => ~ lt a b) racc ->
  exists r, sinsert less x racc = Some r /\ ordered_pairs (fun a b => ~ lt a b) r /\ (forall y, In y r -> y = x \/ In y racc) /\
    (forall z sel, In z L -> selects (tied lt z) racc sel ->
       exists sel', selects (tied lt z) r sel' /\ (tied lt z x -> sel' = x :: sel) /\ (~ tied lt z x -> sel' = sel)).
Proof.
  destruct SW as [D [IR [TR NT]]].
  intros Hx racc. induction racc as [|y racc IH]; intros Hr O; cbn [sinsert].
  - exists [x]. split; [reflexivity|]. split; [repeat constructor; intros ? []|]. split; [intros y [->|[]]; auto|].
    intros z sel Hz S. inversion S; subst.
    destruct (D z x Hz Hx) as [b1 [_ B1]]. destruct (D x z Hx Hz) as [b2 [_ B2]].
    assert (DT : tied lt z x \/ ~ tied lt z x).
    { unfold tied. destruct b1, b2; intuition congruence. }
    destruct DT as [T|T].
    + exists [x]. split; [apply SE_keep; [exact T|constructor]|]. split; [reflexivity|contradiction].
    + exists []. split; [apply SE_drop; [exact T|constructor]|]. split; [contradiction|reflexivity].
  - inversion O as [|? ? O1 O2]; subst.
    destruct (D x y Hx (Hr y (or_introl eq_refl))) as [b [E B]]. rewrite E.
    destruct b.
    + destruct IH as [r [E2 [O3 [I3 S3]]]]; [intros; apply Hr; right; assumption|exact O2|].
      rewrite E2. exists (y :: r). split; [reflexivity|]. split; [|split].
      * constructor; [|exact O3]. intros w Hw. destruct (I3 w Hw) as [->|Hw']; [|apply O1; exact Hw'].
        intro X. apply (IR x Hx). apply (TR x y x); auto; [apply Hr; left; reflexivity|]. apply B. reflexivity.
      * intros w [<-|Hw]; [right; left; reflexivity|]. destruct (I3 w Hw); [left|right; right]; assumption.
      * intros z sel Hz S. inversion S as [|? ? sel0 T S0|? ? ? T S0]; subst.
        -- destruct (S3 z sel0 Hz S0) as [sel' [S1 [K1 K2]]].
           assert (N : ~ tied lt z x).
           { intros [T1 T2]. destruct T as [T3 T4].
             assert (XX : ~ lt x y); [|apply XX; apply B; reflexivity].
             apply (NT x z y); auto. apply Hr; left; reflexivity. }
           exists (y :: sel'). split; [apply SE_keep; assumption|]. split; [contradiction|].
           intros _. f_equal. apply K2. exact N.
        -- destruct (S3 z sel Hz S0) as [sel' [S1 [K1 K2]]].
           exists sel'. split; [apply SE_drop; assumption|]. split; assumption.
    + exists (x :: y :: racc). split; [reflexivity|]. split; [|split].
      * constructor; [|exact O]. intros w [<-|Hw].
        -- intro X. apply B in X. discriminate.
        -- apply (NT x y w); auto; [apply Hr; left; reflexivity|apply Hr; right; exact Hw|intro X; apply B in X; discriminate].
      * intros w [<-|Hw]; [left; reflexivity|right; exact Hw].
      * intros z sel Hz S.
        destruct (D z x Hz Hx) as [b1 [_ B1]]. destruct (D x z Hx Hz) as [b2 [_ B2]].
        assert (DT : tied lt z x \/ ~ tied lt z x).
        { unfold tied. destruct b1, b2; intuition congruence. }
        destruct DT as [T|T].
        -- exists (x :: sel). split; [apply SE_keep; assumption|]. split; [reflexivity|contradiction].
        -- exists sel. split; [apply SE_drop; assumption|]. split; [contradiction|reflexivity].
Qed.

Lemma op_app {A} (R : A -> A -> Prop) l x : ordered_pairs R l -> (forall y, In y l -> R y x) -> ordered_pairs R (l ++ [x]).
Proof.
  induction l as [|y l IH]; intros O H; cbn.
  - constructor; [intros ? []|constructor].
  - inversion O as [|? ? O1 O2]; subst. constructor.
    + intros z Hz. apply in_app_or in Hz. destruct Hz as [Hz|[<-|[]]]; [apply O1; exact Hz|apply H; left; reflexivity].
    + apply IH; [exact O2|]. intros z Hz. apply H. right. exact Hz.
Qed.
Lemma op_rev {A} (R : A -> A -> Prop) l : ordered_pairs (fun a b => R b a) l -> ordered_pairs R (rev l).
Proof.
  induction l as [|x l IH]; intro O; cbn; [constructor|]. inversion O as [|? ? O1 O2]; subst.
  apply op_app; [apply IH; exact O2|]. intros y Hy. apply O1. apply in_rev. exact Hy.
Qed.
Lemma selects_app {A} (P : A -> Prop) l r l' r' : selects P l r -> selects P l' r' -> selects P (l ++ l') (r ++ r').
Proof. intros H H'. induction H; cbn; [exact H'|apply SE_keep; assumption|apply SE_drop; assumption]. Qed.
Lemma selects_rev {A} (P : A -> Prop) l r : selects P l r -> selects P (rev l) (rev r).
Proof.
  intro H. induction H as [|x l r Hx H IH|x l r Hx H IH]; cbn; [constructor| |].
  - apply selects_app; [exact IH|]. apply SE_keep; [exact Hx|constructor].
  - rewrite <- (app_nil_r (rev r)). apply selects_app; [exact IH|]. apply SE_drop; [exact Hx|constructor].
Qed.
Lemma sort_sorted l : (forall y, In y l -> In y L) -> forall racc, (forall y, In y racc -> In y L) ->
  ordered_pairs (fun a b => ~ lt a b) racc ->
  exists r, sort_loop less l racc = Some r /\ ordered_pairs (fun a b => ~ lt b a) r /\
    (forall z s1 s2, In z L -> selects (tied lt z) racc s1 -> selects (tied lt z) l s2 -> selects (tied lt z) r (rev s1 ++ s2)).
Proof.
  induction l as [|x l IH]; intros Hl racc Hr O; cbn [sort_loop].
  - exists (rev racc). split; [reflexivity|]. split; [apply op_rev; exact O|].
    intros z s1 s2 Hz S1 S2. inversion S2; subst. rewrite app_nil_r. apply selects_rev. exact S1.
  - destruct (sinsert_sorted x (Hl x (or_introl eq_refl)) racc Hr O) as [racc' [E [O' [I' S']]]]. rewrite E.
    destruct (IH (fun y Hy => Hl y (or_intror Hy)) racc') as [r [E2 [O2 S2]]]; [|exact O'|].
    { intros y Hy. destruct (I' y Hy) as [->|Hy']; [apply Hl; left; reflexivity|apply Hr; exact Hy']. }
    exists r. split; [exact E2|]. split; [exact O2|].
    intros z s1 s2 Hz H1 H2. destruct (S' z s1 Hz H1) as [sel' [S3 [K1 K2]]].
    inversion H2 as [|? ? s2' T H2'|? ? ? T H2']; subst.
    + rewrite (K1 T) in S3. specialize (S2 z (x :: s1) s2' Hz S3 H2'). cbn in S2.
      rewrite <- app_assoc in S2. exact S2.
    + rewrite (K2 T) in S3. exact (S2 z s1 s2 Hz S3 H2').
Qed.
End Sort.

(** the order of the values sorted without a lambda *)
Definition val_before (x y : node) : Prop := before (val x) (val y).

Section C24.
Variable ev : value -> value -> value -> option value.

(** C24: whatever the comparison does, the result of sort holds the same
    elements as the list *)
Theorem C24_sort_permutation : forall l rest r,
  func_sort ev (VList l :: rest) = OVal (VList r) -> Permutation l r.
Proof.
  intros l rest r H. cbn [func_sort] in H.
  assert (X : exists less, sort_loop less l [] = Some r).
  { destruct rest as [|v [|? ?]].
    - destruct (sort_loop _ l []) eqn:E; [|discriminate]. injection H as <-. eauto.
    - destruct v; try discriminate. destruct (sort_loop _ l []) eqn:E; [|discriminate]. injection H as <-. eauto.
    - destruct v; discriminate. }
  destruct X as [less X]. exact (sort_perm less l [] r X).
Qed.

(** the elements are all integers or all texts *)
Definition uniform (l : list node) : Prop :=
  (forall x, In x l -> exists z, val x = VInt z) \/ (forall x, In x l -> exists s, val x = VStr s).

Lemma scmp_nlt_trans x y z : String.compare x y <> Lt -> String.compare y z <> Lt -> String.compare x z <> Lt.
Proof.
  intros H1 H2 H3. destruct (String.compare x y) eqn:E1.
  - apply scmp_eq in E1. subst y. contradiction.
  - contradiction.
  - apply scmp_gt in E1. apply H2. exact (scmp_trans _ _ _ E1 H3).
Qed.
Lemma uniform_strict l : uniform l -> strict_weak l valueLess (fun x y => valueLess x y = Some true).
Proof.
  intro U. destruct U as [U|U].
  - repeat split.
    + intros x y Hx Hy. unfold valueLess. destruct (U x Hx) as [a ->], (U y Hy) as [b ->]. exists (a <? b).
      split; [reflexivity|]. split; [intros ->; reflexivity|intro X; congruence].
    + intros x Hx. unfold valueLess. destruct (U x Hx) as [a ->]. rewrite Z.ltb_irrefl. discriminate.
    + intros x y z Hx Hy Hz. unfold valueLess. destruct (U x Hx) as [a ->], (U y Hy) as [b ->], (U z Hz) as [c ->].
      intros H1 H2. injection H1 as H1. injection H2 as H2. f_equal. apply Z.ltb_lt in H1, H2. apply Z.ltb_lt. lia.
    + intros x y z Hx Hy Hz. unfold valueLess. destruct (U x Hx) as [a ->], (U y Hy) as [b ->], (U z Hz) as [c ->].
      destruct (Z.ltb_spec a b), (Z.ltb_spec b c), (Z.ltb_spec a c); try congruence. lia.
  - repeat split.
    + intros x y Hx Hy. unfold valueLess. destruct (U x Hx) as [a ->], (U y Hy) as [b ->].
      eexists. split; [reflexivity|]. split; [intros ->; reflexivity|intro X; congruence].
    + intros x Hx. unfold valueLess. destruct (U x Hx) as [a ->]. rewrite scmp_refl. discriminate.
    + intros x y z Hx Hy Hz. unfold valueLess. destruct (U x Hx) as [a ->], (U y Hy) as [b ->], (U z Hz) as [c ->].
      destruct (String.compare a b) eqn:E1; try discriminate. destruct (String.compare b c) eqn:E2; try discriminate.
      rewrite (scmp_trans _ _ _ E1 E2). reflexivity.
    + intros x y z Hx Hy Hz. unfold valueLess. destruct (U x Hx) as [a ->], (U y Hy) as [b ->], (U z Hz) as [c ->].
      intros H1 H2 H3. apply (scmp_nlt_trans a b c).
      * intro X. rewrite X in H1. congruence.
      * intro X. rewrite X in H2. congruence.
      * destruct (String.compare a c); congruence.
Qed.

Lemma before_less x y : (exists a b, val x = VInt a /\ val y = VInt b) \/ (exists a b, val x = VStr a /\ val y = VStr b) ->
  (valueLess x y = Some true <-> val_before x y).
Proof.
  unfold val_before, valueLess. intros [[a [b [-> ->]]]|[a [b [-> ->]]]]; cbn [before].
  - split; [intro H; injection H as H; apply Z.ltb_lt; exact H|intro H; f_equal; apply Z.ltb_lt; exact H].
  - rewrite str_before_lt. destruct (String.compare a b); split; congruence.
Qed.
Lemma ordered_pairs_imp {A} (R Q : A -> A -> Prop) l : (forall x y, In x l -> In y l -> R x y -> Q x y) ->
  ordered_pairs R l -> ordered_pairs Q l.
Proof.
  induction l as [|x l IH]; intros H O; [constructor|]. inversion O as [|? ? O1 O2]; subst. constructor.
  - intros y Hy. apply H; [left; reflexivity|right; exact Hy|auto].
  - apply IH; [|exact O2]. intros a b Ha Hb. apply H; right; assumption.
Qed.

(** C24: a list of integers or a list of texts is sorted: no element is before an
    element left of it; elements with the same value keep their order *)
Theorem C24_sort : forall l, uniform l -> exists r,
  func_sort ev [VList l] = OVal (VList r) /\ Permutation l r /\
  ordered_pairs (fun x y => ~ val_before y x) r /\
  (forall v s, selects (fun y => val y = v) l s -> selects (fun y => val y = v) r s).
Proof.
  intros l U. pose proof (uniform_strict l U) as SW.
  destruct (sort_sorted l valueLess _ SW l (fun y H => H) [] (fun y (H : In y []) => match H with end) (OP_nil _)) as [r [E [O S]]].
  exists r. cbn [func_sort]. rewrite E. split; [reflexivity|].
  pose proof (sort_perm _ _ _ _ E) as P. cbn in P. split; [exact P|].
  assert (I : forall x, In x r -> In x l) by (intros x Hx; apply (Permutation_in _ (Permutation_sym P)); exact Hx).
  assert (B : forall x y, In x l -> In y l -> (valueLess x y = Some true <-> val_before x y)).
  { intros x y Hx Hy. apply before_less. destruct U as [U|U]; destruct (U x Hx) as [a ->], (U y Hy) as [b ->]; [left|right]; eauto. }
  split.
  - apply (ordered_pairs_imp (fun a b => valueLess b a <> Some true)); [|exact O].
    intros x y Hx Hy H X. apply H. apply B; auto.
  - intros v s Hs.
    assert (T : forall x y, In x l -> In y l -> (tied (fun x y => valueLess x y = Some true) x y <-> val y = val x)).
    { intros x y Hx Hy. unfold tied, valueLess. destruct U as [U|U]; destruct (U x Hx) as [a ->], (U y Hy) as [b ->].
      - split.
        + intros [H1 H2]. f_equal. destruct (Z.ltb_spec a b), (Z.ltb_spec b a); try congruence. lia.
        + intro X. injection X as ->. rewrite Z.ltb_irrefl. split; discriminate.
      - split.
        + intros [H1 H2]. f_equal. destruct (String.compare a b) eqn:E1; try congruence.
          * symmetry. apply scmp_eq. exact E1.
          * apply scmp_gt in E1. rewrite E1 in H2. congruence.
        + intro X. injection X as ->. rewrite scmp_refl. split; discriminate. }
    destruct s as [|z s].
    + (* nothing selected *)
      assert (N : forall x, In x l -> val x <> v).
      { clear - Hs. remember [] as e. induction Hs as [|x l r Hx Hs IH|x l r Hx Hs IH]; [intros ? []|discriminate|].
        intros y [<-|Hy]; [exact Hx|apply IH; assumption]. }
      assert (N' : forall x, In x r -> val x <> v) by (intros x Hx; apply N, I, Hx).
      clear - N'. induction r as [|x r IH]; [constructor|]. apply SE_drop; [apply N'; left; reflexivity|].
      apply IH. intros y Hy. apply N'. right. exact Hy.
    + assert (Z : In z l /\ val z = v).
      { clear - Hs. remember (z :: s) as e. induction Hs as [|x l r Hx Hs IH|x l r Hx Hs IH]; [discriminate| |].
        - injection Heqe as -> ->. split; [left; reflexivity|exact Hx].
        - destruct (IH Heqe). split; [right; assumption|assumption]. }
      destruct Z as [Zi Zv]. subst v.
      apply (selects_weaken (tied (fun x y => valueLess x y = Some true) z)).
      * intros x Hx. apply T; auto.
      * apply (S z [] (z :: s) Zi); [constructor|].
        apply (selects_weaken (fun y => val y = val z)); [|exact Hs].
        intros x Hx. symmetry. apply T; auto.
Qed.

(** C24: otherwise sort without lambda fails, unless there is nothing to compare *)
Lemma sort_mixed l : forall racc, racc <> [] -> uniform racc ->
  (sort_loop valueLess l racc = None <-> ~ uniform (racc ++ l)).
Proof.
  induction l as [|x l IH]; intros racc N U; cbn [sort_loop].
  - rewrite app_nil_r. split; [discriminate|]. intro H. contradiction.
  - destruct racc as [|y racc]; [congruence|]. cbn [sinsert].
    assert (D : (exists b, valueLess x y = Some b) /\ uniform (x :: y :: racc) \/ valueLess x y = None /\ ~ uniform (x :: y :: racc)).
    { unfold valueLess.
      assert (Y : (exists z, val y = VInt z) \/ (exists s, val y = VStr s)).
      { destruct U as [U|U]; [left|right]; apply U; left; reflexivity. }
      destruct Y as [[b Yb]|[b Yb]]; rewrite Yb.
      - destruct (val x) eqn:Ex; try (right; split; [reflexivity|]; intros [X|X];
          destruct (X x (or_introl eq_refl)) as [? Q], (X y (or_intror (or_introl eq_refl))) as [? Q2]; congruence).
        left. split; [eauto|]. left. intros w [<-|Hw]; [eauto|].
        destruct U as [U|U]; [apply U; exact Hw|]. destruct (U y (or_introl eq_refl)) as [? Q]. congruence.
      - destruct (val x) eqn:Ex; try (right; split; [reflexivity|]; intros [X|X];
          destruct (X x (or_introl eq_refl)) as [? Q], (X y (or_intror (or_introl eq_refl))) as [? Q2]; congruence).
        left. split; [eauto|]. right. intros w [<-|Hw]; [eauto|].
        destruct U as [U|U]; [|apply U; exact Hw]. destruct (U y (or_introl eq_refl)) as [? Q]. congruence. }
    assert (SH : forall racc', Permutation (x :: y :: racc) racc' -> (uniform (racc' ++ l) <-> uniform ((y :: racc) ++ x :: l))).
    { intros racc' P. assert (PP : Permutation (racc' ++ l) ((y :: racc) ++ x :: l)).
      { apply perm_trans with ((x :: y :: racc) ++ l); [apply Permutation_app_tail, Permutation_sym, P|].
        apply (Permutation_middle (y :: racc) l x). }
      split; intros [X|X]; [left|right|left|right]; intros w Hw; apply X.
      - apply (Permutation_in _ (Permutation_sym PP)). exact Hw.
      - apply (Permutation_in _ (Permutation_sym PP)). exact Hw.
      - apply (Permutation_in _ PP). exact Hw.
      - apply (Permutation_in _ PP). exact Hw. }
    destruct D as [[[b Eb] D]|[Eb D]].
    + pose proof (uniform_strict _ D) as SW.
      assert (Q : exists r, sinsert valueLess x (y :: racc) = Some r).
      { clear - D SW. revert D. generalize (y :: racc). intros l D.
        assert (H : forall w, In w (x :: l) -> exists b, valueLess x w = Some b).
        { intros w Hw. unfold valueLess. destruct D as [D|D]; destruct (D x (or_introl eq_refl)) as [? ->], (D w Hw) as [? ->]; eauto. }
        clear - H. induction l as [|w l IH]; cbn [sinsert]; [eauto|].
        destruct (H w (or_intror (or_introl eq_refl))) as [[|] ->]; [|eauto].
        destruct IH as [r ->]; [intros v [<-|Hv]; apply H; [left; reflexivity|right; right; exact Hv]|]. cbn. eauto. }
      destruct Q as [r Q]. pose proof (sinsert_perm _ _ _ _ Q) as P. cbn [sinsert] in Q. rewrite Q.
      rewrite IH.
      * rewrite (SH r P). reflexivity.
      * intro X. subst. apply Permutation_sym, Permutation_nil in P. discriminate.
      * destruct D as [D|D]; [left|right]; intros w Hw; apply D; apply (Permutation_in _ (Permutation_sym P)); exact Hw.
    + rewrite Eb. split; [|reflexivity]. intros _ X. apply D.
      apply (SH (x :: y :: racc) (Permutation_refl _)) in X.
      destruct X as [X|X]; [left|right]; intros w Hw; apply X; apply in_or_app; left; exact Hw.
Qed.
Theorem C24_sort_mixed : forall l,
  func_sort ev [VList l] = OErr <-> (2 <= length l)%nat /\ ~ uniform l.
Proof.
  intro l. cbn [func_sort]. destruct l as [|x [|y l]].
  - cbn. split; [discriminate|]. intros [H _]. lia.
  - cbn. split; [discriminate|]. intros [H _]. lia.
  - assert (X : sort_loop valueLess (x :: y :: l) [] = None <-> ~ uniform (x :: y :: l)).
    { cbn [sort_loop sinsert].
      destruct (val x) eqn:Ex.
      3: apply (sort_mixed (y :: l) [x]); [discriminate|left; intros w [<-|[]]; eauto].
      5: apply (sort_mixed (y :: l) [x]); [discriminate|right; intros w [<-|[]]; eauto].
      all: replace (valueLess y x) with (@None bool) by (unfold valueLess; rewrite Ex; destruct (val y); reflexivity);
        split; [|reflexivity]; intros _ [X|X]; destruct (X x (or_introl eq_refl)) as [? Q]; congruence. }
    destruct (sort_loop valueLess (x :: y :: l) []); cbn [length].
    + split; [discriminate|]. intros [_ H]. apply X in H. discriminate.
    + split; [|reflexivity]. intros _. split; [lia|]. apply X. reflexivity.
Qed.

(** what a comparison lambda says: true or a negative integer *)
Definition says_less (f : value) (x y : node) : Prop :=
  ev f (val x) (val y) = Some (VBool true) \/ exists i, ev f (val x) (val y) = Some (VInt i) /\ i < 0.
Definition answers (f : value) (x y : node) : Prop :=
  (exists b, ev f (val x) (val y) = Some (VBool b)) \/ (exists i, ev f (val x) (val y) = Some (VInt i)).

(** C24: sorting by a lambda that is a strict weak order on the elements yields a
    sorted permutation in which tied elements keep their order *)
Theorem C24_sort_lambda : forall l f, (exists ps va b st rs, f = VLambda ps va b st rs) ->
  (forall x y, In x l -> In y l -> answers f x y) ->
  (forall x, In x l -> ~ says_less f x x) ->
  (forall x y z, In x l -> In y l -> In z l -> says_less f x y -> says_less f y z -> says_less f x z) ->
  (forall x y z, In x l -> In y l -> In z l -> ~ says_less f x y -> ~ says_less f y z -> ~ says_less f x z) ->
  exists r, func_sort ev [VList l; f] = OVal (VList r) /\ Permutation l r /\
    ordered_pairs (fun x y => ~ says_less f y x) r /\
    (forall z s, In z l -> selects (tied (says_less f) z) l s -> selects (tied (says_less f) z) r s).
Proof.
  intros l f [ps [va [b [st [rs ->]]]]] A IR TR NT.
  set (f := VLambda ps va b st rs) in *.
  assert (SW : strict_weak l (lambdaLess (ev f)) (says_less f)).
  { split; [|split; [|split]]; try assumption.
    intros x y Hx Hy. unfold lambdaLess, says_less. destruct (A x y Hx Hy) as [[c E]|[i E]]; rewrite E.
    - exists c. split; [reflexivity|]. split; [intros ->; left; reflexivity|].
      intros [X|[i [X _]]]; [congruence|discriminate].
    - exists (i <? 0). split; [reflexivity|]. rewrite Z.ltb_lt. split; [eauto|].
      intros [X|[j [X Y]]]; [discriminate|]. injection X as ->. exact Y. }
  destruct (sort_sorted l _ _ SW l (fun y H => H) [] (fun y (H : In y []) => match H with end) (OP_nil _)) as [r [E [O S]]].
  exists r. change (func_sort ev [VList l; f]) with
    (match sort_loop (lambdaLess (ev f)) l [] with Some r => OVal (VList r) | None => OErr end).
  rewrite E. split; [reflexivity|].
  pose proof (sort_perm _ _ _ _ E) as P. cbn in P. split; [exact P|]. split; [exact O|].
  intros z s Hz Hs. apply (S z [] s Hz); [constructor|exact Hs].
Qed.
End C24.

(** ** reverse *)
Lemma nth_ext_error {A} (l l' : list A) : (forall k, nth_error l k = nth_error l' k) -> l = l'.
Proof.
  revert l'. induction l as [|x l IH]; intros [|y l'] H.
  - reflexivity.
  - discriminate (H 0%nat).
  - discriminate (H 0%nat).
  - f_equal; [injection (H 0%nat); auto|]. apply IH. intro k. apply (H (S k)).
Qed.
Lemma rev_nth_error {A} (l : list A) k : (k < length l)%nat -> nth_error (rev l) k = nth_error l (length l - 1 - k).
Proof.
  induction l as [|x l IH]; intro H; cbn [rev length] in *; [lia|].
  destruct (Nat.lt_ge_cases k (length l)) as [K|K].
  - rewrite nth_error_app1 by (rewrite rev_length; exact K). rewrite IH by exact K.
    replace (S (length l) - 1 - k)%nat with (S (length l - 1 - k)) by lia. reflexivity.
  - rewrite nth_error_app2 by (rewrite rev_length; exact K). rewrite rev_length.
    replace (k - length l)%nat with 0%nat by lia. replace (S (length l) - 1 - k)%nat with 0%nat by lia. reflexivity.
Qed.
Lemma lset_len {A} i (x : A) l : length (lset i x l) = length l.
Proof. revert i. induction l as [|y l IH]; intros [|i]; cbn; auto. Qed.
Lemma lset_nth {A} i (x : A) l k : (i < length l)%nat ->
  nth_error (lset i x l) k = if Nat.eqb k i then Some x else nth_error l k.
Proof.
  revert i k. induction l as [|y l IH]; intros i k H; cbn in H; [lia|].
  destruct i, k; cbn; try reflexivity. rewrite IH by lia. reflexivity.
Qed.
Lemma lswap_len {A} i j (l : list A) : length (lswap i j l) = length l.
Proof. unfold lswap. destruct (nth_error l i), (nth_error l j); rewrite ?lset_len; reflexivity. Qed.
Lemma lswap_nth {A} i j (l : list A) k : (i < length l)%nat -> (j < length l)%nat ->
  nth_error (lswap i j l) k = if Nat.eqb k j then nth_error l i else if Nat.eqb k i then nth_error l j else nth_error l k.
Proof.
  intros Hi Hj. unfold lswap.
  destruct (nth_error l i) as [x|] eqn:Ei; [|apply nth_error_None in Ei; lia].
  destruct (nth_error l j) as [y|] eqn:Ej; [|apply nth_error_None in Ej; lia].
  rewrite lset_nth by (rewrite lset_len; exact Hj). rewrite lset_nth by exact Hi. reflexivity.
Qed.
Lemma reverse_loop_nth {A} n : forall i (l : list A), (2 * (i + n) <= length l)%nat -> 
  length (reverse_loop n i l) = length l /\
  forall k, nth_error (reverse_loop n i l) k =
    if (Nat.leb i k && Nat.ltb k (i + n)) || (Nat.ltb k (length l - i) && Nat.leb (length l - i - n) k)
    then nth_error l (length l - 1 - k) else nth_error l k.
Proof.
  induction n as [|n IH]; intros i l H; cbn [reverse_loop].
  - split; [reflexivity|]. intro k.
    destruct (Nat.leb_spec i k), (Nat.ltb_spec k (i + 0)), (Nat.ltb_spec k (length l - i)), (Nat.leb_spec (length l - i - 0) k); cbn; try reflexivity; lia.
  - destruct (IH (S i) (lswap i (length l - 1 - i) l)) as [L N]; [rewrite lswap_len; lia|].
    rewrite lswap_len in *. split; [exact L|]. intro k. rewrite N.
    rewrite !lswap_nth by lia.
    destruct (Nat.leb_spec (S i) k), (Nat.ltb_spec k (S i + n)), (Nat.ltb_spec k (length l - S i)), (Nat.leb_spec (length l - S i - n) k),
      (Nat.leb_spec i k), (Nat.ltb_spec k (i + S n)), (Nat.ltb_spec k (length l - i)), (Nat.leb_spec (length l - i - S n) k); cbn [andb orb]; try lia;
    repeat match goal with |- context [Nat.eqb ?a ?b] => destruct (Nat.eqb_spec a b); try lia end;
    try reflexivity; try (f_equal; lia).
Qed.
Lemma reverseL_rev {A} (l : list A) : reverseL l = rev l.
Proof.
  unfold reverseL.
  assert (D : (2 * Nat.div2 (length l) <= length l /\ length l <= 2 * Nat.div2 (length l) + 1)%nat).
  { pose proof (Nat.div2_odd (length l)) as Q. destruct (Nat.odd (length l)); cbn [Nat.b2n] in Q; lia. }
  destruct D as [D1 D2].
  destruct (reverse_loop_nth (Nat.div2 (length l)) 0 l) as [L N]; [lia|].
  apply nth_ext_error. intro k. rewrite N.
  destruct (Nat.lt_ge_cases k (length l)) as [K|K].
  - rewrite rev_nth_error by exact K.
    destruct (Nat.leb_spec 0 k), (Nat.ltb_spec k (0 + Nat.div2 (length l))), (Nat.ltb_spec k (length l - 0)), (Nat.leb_spec (length l - 0 - Nat.div2 (length l)) k); cbn [andb orb]; try lia; try (f_equal; lia).
  - replace (nth_error (rev l) k) with (@None A) by (symmetry; apply nth_error_None; rewrite rev_length; exact K).
    destruct (Nat.leb_spec 0 k), (Nat.ltb_spec k (0 + Nat.div2 (length l))), (Nat.ltb_spec k (length l - 0)), (Nat.leb_spec (length l - 0 - Nat.div2 (length l)) k); cbn [andb orb]; try lia; apply nth_error_None; exact K.
Qed.

(** C24: reverse yields the elements in reverse order, and is an involution *)
Theorem C24_reverse : forall l, exists r, func_reverse [VList l] = OVal (VList r) /\ length r = length l /\
  (forall i, (i < length l)%nat -> nth_error r i = nth_error l (length l - 1 - i)) /\
  func_reverse [VList r] = OVal (VList l).
Proof.
  intro l. exists (rev l). unfold func_reverse. rewrite !reverseL_rev. split; [reflexivity|]. split; [apply rev_length|]. split.
  - intros i Hi. rewrite rev_nth_error by exact Hi. reflexivity.
  - rewrite rev_involutive. reflexivity.
Qed.

(** non-vacuity *)
Example C24_case : forall ev,
  let n z a := mkNode (VInt z) emptyAnn a None None in
  func_sort ev [VList [n 3 "a"; n 1 "b"; n 3 "c"; n 2 "d"]] = OVal (VList [n 1 "b"; n 2 "d"; n 3 "a"; n 3 "c"]) /\
  func_sort ev [VList [n 3 "a"; newNode (VStr "x") ""]] = OErr /\
  func_reverse [VList [n 3 "a"; n 1 "b"; n 2 "c"]] = OVal (VList [n 2 "c"; n 1 "b"; n 3 "a"]).
Proof. repeat split. Qed.

Print Assumptions C23_uniq.
Print Assumptions C23_uniq_first_partial.
Print Assumptions C23_uniq_first_refuted.
Print Assumptions C23_compact.
Print Assumptions C23_intersect_partial.
Print Assumptions C23_intersect_error.
Print Assumptions C23_intersect_refuted.
Print Assumptions C23_contains_list.
Print Assumptions C23_index_list.
Print Assumptions C23_lastindex_list.
Print Assumptions C23_nil_refuted.
Print Assumptions C23_contains_text.
Print Assumptions C23_index_text.
Print Assumptions C23_lastindex_text.
Print Assumptions C23_agree.
Print Assumptions C24_sort_permutation.
Print Assumptions C24_sort.
Print Assumptions C24_sort_mixed.
Print Assumptions C24_sort_lambda.
Print Assumptions C24_reverse.
