(** C38 validation logic. *)
From Verif Require Import Core CoreFacts Str StrFacts PropFix Find Unresolved Env Arith IP Comparison Flow Info Eval Validate World0.
From Coq Require Import Lia Permutation.
Import ListNotations.

Section C38.
Variable ST : Type.
Variable lambdaText : value -> string.
Variable N : netx.
Variable regex : string -> option (string -> bool).
Variable registered : string -> option (value -> list value -> M ST vres).
Variable rec : expr -> binding -> bool -> M ST R.
Variable env : binding.
Variable traverse : smap node -> list (string * node).
Notation condition := (condition ST lambdaText N regex registered rec env traverse).

(** * Specification *)

(** the condition [c] on the value [v] yields [r] in state [s] *)
Definition yields (c : node) (v : value) (s : ST) (r : vres) (s' : ST) : Prop := condition c v s = Ret r s'.
(** [name, args ...] *)
Definition isCond (c : node) (name : string) (args : list node) : Prop :=
  exists n, val c = VList (n :: args) /\ val n = VStr name.
(** all conditions, one after the other, yield [b] *)
Inductive chain (b : bool) (v : value) : list node -> ST -> ST -> Prop :=
| chain_nil : forall s, chain b v [] s s
| chain_cons : forall c l s s1 s2, yields c v s (VRes b) s1 -> chain b v l s1 s2 -> chain b v (c :: l) s s2.
(** all entries, one after the other, meet all conditions *)
Inductive chainEntries (args : list node) : list node -> ST -> ST -> Prop :=
| ce_nil : forall s, chainEntries args [] s s
| ce_cons : forall e l s s1 s2, chain true (val e) args s s1 -> chainEntries args l s1 s2 -> chainEntries args (e :: l) s s2.

(** * The steps *)
Notation subs args := (map (fun a => (a, condition a)) args).
Lemma condition_eq : forall c v, condition c v =
  match val c with
  | VNil => res ST true
  | VStr _ | VLambda _ _ _ _ _ => validate1 ST lambdaText N regex registered rec env traverse v (val c) []
  | VList [] => verr ST
  | VList (d :: args) => validate1 ST lambdaText N regex registered rec env traverse v (val d) (subs args)
  | _ => verr ST
  end.
Proof. intros [w a s t r] v. destruct w; reflexivity. Qed.
Lemma cond_named : forall c name args v, isCond c name args ->
  condition c v = named ST lambdaText N regex registered traverse v name (subs args).
Proof. intros c name args v (n & E & F). rewrite condition_eq, E, F. reflexivity. Qed.
Lemma bind_ret : forall A B (m : M ST A) (k : A -> M ST B) s b s',
  bind ST m k s = Ret b s' <-> exists a s1, m s = Ret a s1 /\ k a s1 = Ret b s'.
Proof.
  intros. unfold bind. destruct (m s) as [a s1| |].
  - split; [intro H; now exists a, s1|]. intros (a' & s2 & E & H). inversion E. now subst.
  - split; [discriminate|]. now intros (a' & s2 & E & _).
  - split; [discriminate|]. now intros (a' & s2 & E & _).
Qed.
Lemma ret_ret : forall A (x a : A) (s s' : ST), ret ST x s = Ret a s' <-> a = x /\ s' = s.
Proof. intros. unfold ret. split; [intro H; inversion H; auto|intros [-> ->]; reflexivity]. Qed.

Lemma allSubs_true : forall args v s s', allSubs ST (subs args) v s = Ret (VRes true) s' <-> chain true v args s s'.
Proof.
  induction args as [|c l IH]; intros v s s'; cbn [map allSubs].
  - unfold res. rewrite ret_ret. split; [intros [_ ->]; constructor|inversion 1; subst; split; reflexivity].
  - rewrite bind_ret. split.
    + intros (x & s1 & E & H). destruct x as [| |[|]]; try (apply ret_ret in H; destruct H; discriminate).
      apply IH in H. econstructor; eauto.
    + inversion 1; subst. exists (VRes true), s1. split; [exact H2|]. now apply IH.
Qed.
Lemma allSubs_other : forall args v s s' r, r <> VRes true ->
  (allSubs ST (subs args) v s = Ret r s' <->
   exists l1 c l2 s1, args = l1 ++ c :: l2 /\ chain true v l1 s s1 /\ yields c v s1 r s').
Proof.
  induction args as [|c l IH]; intros v s s' r NR; cbn [map allSubs].
  - unfold res. rewrite ret_ret. split; [intros [E _]; congruence|]. intros (l1 & c & l2 & s1 & E & _). now destruct l1.
  - rewrite bind_ret. split.
    + intros (x & s1 & E & H). assert (D : x = VRes true \/ x <> VRes true) by (destruct x as [| |[|]]; auto; right; discriminate).
      destruct D as [->|D].
      * apply IH in H; auto. destruct H as (l1 & c' & l2 & s2 & -> & C & Y). exists (c :: l1), c', l2, s2.
        split; [reflexivity|]. split; [econstructor; eauto|exact Y].
      * assert (X : r = x /\ s' = s1) by (destruct x as [| |[|]]; try congruence; now apply ret_ret in H).
        destruct X as [-> ->]. exists [], c, l, s. split; [reflexivity|]. split; [constructor|exact E].
    + intros (l1 & c' & l2 & s1 & E & C & Y). destruct l1 as [|d l1]; cbn in E; inversion E; subst.
      * inversion C; subst. exists r, s'. split; [exact Y|]. destruct r as [| |[|]]; try congruence; reflexivity.
      * inversion C; subst. exists (VRes true), s2. split; [assumption|]. apply IH; auto. now exists l1, c', l2, s1.
Qed.
Lemma anySub_false : forall args v s s', anySub ST (subs args) v s = Ret (VRes false) s' <-> chain false v args s s'.
Proof.
  induction args as [|c l IH]; intros v s s'; cbn [map anySub].
  - unfold res. rewrite ret_ret. split; [intros [_ ->]; constructor|inversion 1; subst; split; reflexivity].
  - rewrite bind_ret. split.
    + intros (x & s1 & E & H). destruct x as [| |[|]]; try (apply ret_ret in H; destruct H; discriminate).
      apply IH in H. econstructor; eauto.
    + inversion 1; subst. exists (VRes false), s1. split; [exact H2|]. now apply IH.
Qed.
Lemma anySub_other : forall args v s s' r, r <> VRes false ->
  (anySub ST (subs args) v s = Ret r s' <->
   exists l1 c l2 s1, args = l1 ++ c :: l2 /\ chain false v l1 s s1 /\ yields c v s1 r s').
Proof.
  induction args as [|c l IH]; intros v s s' r NR; cbn [map anySub].
  - unfold res. rewrite ret_ret. split; [intros [E _]; congruence|]. intros (l1 & c & l2 & s1 & E & _). now destruct l1.
  - rewrite bind_ret. split.
    + intros (x & s1 & E & H). assert (D : x = VRes false \/ x <> VRes false) by (destruct x as [| |[|]]; auto; right; discriminate).
      destruct D as [->|D].
      * apply IH in H; auto. destruct H as (l1 & c' & l2 & s2 & -> & C & Y). exists (c :: l1), c', l2, s2.
        split; [reflexivity|]. split; [econstructor; eauto|exact Y].
      * assert (X : r = x /\ s' = s1) by (destruct x as [| |[|]]; try congruence; now apply ret_ret in H).
        destruct X as [-> ->]. exists [], c, l, s. split; [reflexivity|]. split; [constructor|exact E].
    + intros (l1 & c' & l2 & s1 & E & C & Y). destruct l1 as [|d l1]; cbn in E; inversion E; subst.
      * inversion C; subst. exists r, s'. split; [exact Y|]. destruct r as [| |[|]]; try congruence; reflexivity.
      * inversion C; subst. exists (VRes false), s2. split; [assumption|]. apply IH; auto. now exists l1, c', l2, s1.
Qed.

(** a name without "!" that is not empty and not "not" *)
Definition plainName (name : string) : Prop := hasPrefix name "!" = false /\ name <> ""%string /\ name <> "not"%string.
Lemma named_plain : forall name args v s r s', plainName name ->
  (named ST lambdaText N regex registered traverse v name args s = Ret r s' <->
   strOp ST lambdaText N regex registered traverse v name args s = Ret r s').
Proof.
  intros name args v s r s' (P & E & NN). unfold named. rewrite P. cbn [negb andb].
  rewrite (proj2 (String.eqb_neq name "") E), (proj2 (String.eqb_neq name "not") NN). rewrite bind_ret. split.
  - intros (x & s1 & H & K). apply ret_ret in K. destruct K as [-> ->]. rewrite H. now destruct x.
  - intro H. exists r, s'. split; [exact H|]. apply ret_ret. now destruct r.
Qed.

(** * C38: and, or, not *)

(** and: true iff all conditions are, in sequence; otherwise the first result that
    is not true (false, an error, or not resolved yet) *)
Theorem C38_and : forall c args v s s', isCond c "and" args -> args <> [] ->
  (yields c v s (VRes true) s' <-> chain true v args s s')
  /\ (forall r, r <> VRes true ->
       (yields c v s r s' <->
        exists l1 d l2 s1, args = l1 ++ d :: l2 /\ chain true v l1 s s1 /\ yields d v s1 r s')).
Proof.
  intros c args v s s' C NE. 
  assert (P : plainName "and") by (split; [reflexivity|split; discriminate]).
  assert (E : strOp ST lambdaText N regex registered traverse v "and" (subs args) = allSubs ST (subs args) v)
    by (destruct args; [congruence|reflexivity]).
  split.
  - unfold yields. rewrite (cond_named c "and" args v C), (named_plain _ _ _ _ _ _ P), E. apply allSubs_true.
  - intros r NR. unfold yields at 1. rewrite (cond_named c "and" args v C).
    rewrite (named_plain _ _ _ _ _ _ P), E. now apply allSubs_other.
Qed.
(** or: false iff all conditions are; otherwise the first result that is not false *)
Theorem C38_or : forall c args v s s', isCond c "or" args -> (2 <= length args)%nat ->
  (yields c v s (VRes false) s' <-> chain false v args s s')
  /\ (forall r, r <> VRes false ->
       (yields c v s r s' <->
        exists l1 d l2 s1, args = l1 ++ d :: l2 /\ chain false v l1 s s1 /\ yields d v s1 r s')).
Proof.
  intros c args v s s' C NE. 
  assert (P : plainName "or") by (split; [reflexivity|split; discriminate]).
  assert (E : strOp ST lambdaText N regex registered traverse v "or" (subs args) = anySub ST (subs args) v)
    by (destruct args as [|? [|]]; cbn in NE; try lia; reflexivity).
  split.
  - unfold yields. rewrite (cond_named c "or" args v C), (named_plain _ _ _ _ _ _ P), E. apply anySub_false.
  - intros r NR. unfold yields at 1. rewrite (cond_named c "or" args v C).
    rewrite (named_plain _ _ _ _ _ _ P), E. now apply anySub_other.
Qed.
(** with a single condition or is true, also if the condition is false *)
Theorem C38_or_single_refuted : forall c d v s s', isCond c "or" [d] ->
  (yields c v s (VRes true) s' <-> exists b, yields d v s (VRes b) s')
  /\ ~ yields c v s (VRes false) s'.
Proof.
  intros c d v s s' C. unfold yields at 1 3. rewrite (cond_named c "or" [d] v C).
  assert (P : plainName "or") by (split; [reflexivity|split; discriminate]).
  rewrite !(named_plain _ _ _ _ _ _ P).
  change (strOp ST lambdaText N regex registered traverse v "or" (subs [d])) with
    (bind ST (condition d v) (fun x => ret ST (match x with VRes _ => VRes true | _ => x end))).
  split.
  - rewrite bind_ret. split.
    + intros (x & s1 & E & H). apply ret_ret in H. destruct H as [H ->]. destruct x as [| |b]; try discriminate. now exists b.
    + intros [b E]. exists (VRes b), s'. split; [exact E|reflexivity].
  - rewrite bind_ret. intros (x & s1 & E & H). apply ret_ret in H. destruct H as [H _]. now destruct x.
Qed.
(** not: the inverse of the conjunction of its conditions *)
Theorem C38_not : forall c c' args v s s' b, isCond c "not" args -> isCond c' "and" args ->
  (yields c v s (VRes b) s' <-> yields c' v s (VRes (negb b)) s').
Proof.
  intros c c' args v s s' b C C'. unfold yields. rewrite (cond_named _ _ _ v C), (cond_named _ _ _ v C').
  assert (P : plainName "and") by (split; [reflexivity|split; discriminate]).
  rewrite (named_plain _ _ _ _ _ _ P). unfold named. cbn [hasPrefix]. change (hasPrefix "not" "!") with false.
  cbn [negb andb]. change (String.eqb "not" "") with false. change (String.eqb "not" "not") with true. cbv beta iota zeta.
  change (strOp ST lambdaText N regex registered traverse v "not") with (strOp ST lambdaText N regex registered traverse v "and").
  rewrite bind_ret. split.
  - intros (x & s1 & E & H). apply ret_ret in H. destruct H as [H ->]. destruct x as [| |b']; try discriminate.
    inversion H. rewrite Bool.negb_involutive. exact E.
  - intro E. exists (VRes (negb b)), s'. split; [exact E|]. apply ret_ret. cbn. now rewrite Bool.negb_involutive.
Qed.
Theorem C38_not_single : forall c d v s s' b, isCond c "not" [d] ->
  (yields c v s (VRes b) s' <-> yields d v s (VRes (negb b)) s').
Proof.
  intros c d v s s' b C.
  set (c' := mkNode (VList [mkNode (VStr "and") emptyAnn "" None None; d]) emptyAnn "" None None).
  assert (C' : isCond c' "and" [d]) by (eexists; split; reflexivity).
  rewrite (C38_not c c' [d] v s s' b C C'). destruct (C38_and c' [d] v s s' C' ltac:(discriminate)) as [A B].
  destruct (negb b).
  - rewrite A. split; [inversion 1; subst; inversion H5; subst; assumption|]. intro. econstructor; [eassumption|constructor].
  - rewrite (B (VRes false)) by discriminate. split.
    + intros (l1 & e & l2 & s1 & E & X & Y). destruct l1 as [|? [|]]; cbn in E; inversion E; subst. inversion X; subst. exact Y.
    + intro Y. exists [], d, [], s. split; [reflexivity|]. split; [constructor|exact Y].
Qed.
(** a leading "!" inverts the condition (the name after it has no further one) *)
Theorem C38_inverse : forall c c' op args v s s' b, isCond c ("!" +++ op) args -> isCond c' op args ->
  op <> ""%string -> hasPrefix op "!" = false ->
  (yields c v s (VRes b) s' <-> yields c' v s (VRes (negb b)) s').
Proof.
  intros c c' op args v s s' b C C' NE NB. unfold yields. rewrite (cond_named _ _ _ v C), (cond_named _ _ _ v C').
  unfold named. rewrite NB. replace (hasPrefix ("!" +++ op) "!") with true by (symmetry; apply hasPrefix_spec; now exists op).
  change (sdrop 1 ("!" +++ op)) with (sdrop (String.length "!") ("!" +++ op)). rewrite sdrop_app.
  cbn [negb andb]. rewrite (proj2 (String.eqb_neq op "") NE). rewrite !bind_ret. split.
  - intros (x & s1 & E & H). exists x, s1. split; [exact E|]. apply ret_ret in H. destruct H as [H ->]. apply ret_ret.
    destruct x as [| |x]; try discriminate. split; [|reflexivity]. inversion H.
    destruct (String.eqb op "not"); cbn; now rewrite ?Bool.negb_involutive.
  - intros (x & s1 & E & H). exists x, s1. split; [exact E|]. apply ret_ret in H. destruct H as [H ->]. apply ret_ret.
    destruct x as [| |x]; try discriminate. split; [|reflexivity]. inversion H. f_equal.
    destruct (String.eqb op "not"); cbn in *; destruct b, x; cbn in *; congruence.
Qed.
(** two of them are no double inversion but an error *)
Theorem C38_double_inverse_refuted : forall c args v s, isCond c "!!list" args -> registered "!list"%string = None ->
  yields c v s VErr s.
Proof.
  intros c args v s C NR. unfold yields. rewrite (cond_named _ _ _ v C). unfold named. change (hasPrefix "!!list" "!") with true.
  change (sdrop 1 "!!list") with "!list"%string. cbn [negb andb]. unfold bind.
  assert (E : strOp ST lambdaText N regex registered traverse v "!list" (subs args) s = Ret VErr s).
  { unfold strOp. cbn -[map]. rewrite NR. reflexivity. }
  rewrite E. reflexivity.
Qed.

(** * C38: lists, maps and fields *)
Lemma allEntries_true : forall l args s s', allEntries ST l (subs args) s = Ret (VRes true) s' <-> chainEntries args l s s'.
Proof.
  induction l as [|e l IH]; intros args s s'; cbn [allEntries].
  - unfold res. rewrite ret_ret. split; [intros [_ ->]; constructor|inversion 1; subst; split; reflexivity].
  - rewrite bind_ret. split.
    + intros (x & s1 & E & H). destruct x as [| |[|]]; try (apply ret_ret in H; destruct H; discriminate).
      apply IH in H. apply allSubs_true in E. econstructor; eauto.
    + inversion 1; subst. exists (VRes true), s1. split; [now apply allSubs_true|]. now apply IH.
Qed.
Lemma allEntries_other : forall l args s s' r, r <> VRes true ->
  (allEntries ST l (subs args) s = Ret r s' <->
   exists l1 e l2 s1, l = l1 ++ e :: l2 /\ chainEntries args l1 s s1 /\
     exists a1 d a2 s2, args = a1 ++ d :: a2 /\ chain true (val e) a1 s1 s2 /\ yields d (val e) s2 r s').
Proof.
  induction l as [|e l IH]; intros args s s' r NR; cbn [allEntries].
  - unfold res. rewrite ret_ret. split; [intros [E _]; congruence|]. intros (l1 & c & l2 & s1 & E & _). now destruct l1.
  - rewrite bind_ret. split.
    + intros (x & s1 & E & H). assert (D : x = VRes true \/ x <> VRes true) by (destruct x as [| |[|]]; auto; right; discriminate).
      destruct D as [->|D].
      * apply allSubs_true in E. apply IH in H; auto. destruct H as (l1 & e' & l2 & s2 & -> & C & Y).
        exists (e :: l1), e', l2, s2. split; [reflexivity|]. split; [econstructor; eauto|exact Y].
      * assert (X : r = x /\ s' = s1) by (destruct x as [| |[|]]; try congruence; now apply ret_ret in H).
        destruct X as [-> ->]. exists [], e, l, s. split; [reflexivity|]. split; [constructor|].
        now apply allSubs_other in E.
    + intros (l1 & e' & l2 & s1 & E & C & Y). destruct l1 as [|d l1]; cbn in E; inversion E; subst.
      * inversion C; subst. exists r, s'. split; [now apply allSubs_other|]. destruct r as [| |[|]]; try congruence; reflexivity.
      * inversion C; subst. exists (VRes true), s2. split; [now apply allSubs_true|]. apply IH; auto. now exists l1, e', l2, s1.
Qed.
(** list: the value is a list, and all entries meet all conditions *)
Theorem C38_list : forall c args l s s', isCond c "list" args -> args <> [] ->
  (yields c (VList l) s (VRes true) s' <-> chainEntries args l s s')
  /\ (forall r, r <> VRes true ->
       (yields c (VList l) s r s' <->
        exists l1 e l2 s1, l = l1 ++ e :: l2 /\ chainEntries args l1 s s1 /\
          exists a1 d a2 s2, args = a1 ++ d :: a2 /\ chain true (val e) a1 s1 s2 /\ yields d (val e) s2 r s')).
Proof.
  intros c args l s s' C NE.
  assert (P : plainName "list") by (split; [reflexivity|split; discriminate]).
  assert (E : strOp ST lambdaText N regex registered traverse (VList l) "list" (subs args) = allEntries ST l (subs args))
    by (destruct args; [congruence|reflexivity]).
  split.
  - unfold yields. rewrite (cond_named _ _ _ _ C), (named_plain _ _ _ _ _ _ P), E. apply allEntries_true.
  - intros r NR. unfold yields at 1. rewrite (cond_named _ _ _ _ C), (named_plain _ _ _ _ _ _ P), E. now apply allEntries_other.
Qed.
(** the value has the wrong type, or there are no conditions *)
Theorem C38_containers : forall c args v s, isCond c "list" args \/ isCond c "map" args ->
  (isCond c "list" args -> (forall l, v <> VList l) -> yields c v s (VRes false) s)
  /\ (isCond c "map" args -> (forall m, v <> VMap m) -> yields c v s (VRes false) s)
  /\ (isCond c "list" [] -> forall l, yields c (VList l) s (VRes true) s)
  /\ (isCond c "map" [] -> forall m, yields c (VMap m) s (VRes true) s).
Proof.
  intros c args v s _.
  assert (P : plainName "list") by (split; [reflexivity|split; discriminate]).
  assert (P' : plainName "map") by (split; [reflexivity|split; discriminate]).
  repeat split; intros C H; unfold yields; rewrite (cond_named _ _ _ _ C); apply named_plain; auto.
  - destruct v; try reflexivity. now elim (H l).
  - destruct v; try reflexivity. now elim (H m).
Qed.

(** mapfield and optionalfield: the condition applies to the field; a missing one is
    false or, if it is optional, true *)
Theorem C38_field : forall c (optional : bool) f field d m s r s',
  isCond c (if optional then "optionalfield" else "mapfield") [f; d] -> val f = VStr field ->
  (yields c (VMap m) s r s' <->
   match mget field m with
   | Some n => yields d (val n) s r s'
   | None => r = VRes optional /\ s' = s
   end).
Proof.
  intros c optional f field d m s r s' C F. unfold yields. rewrite (cond_named _ _ _ _ C).
  rewrite named_plain by (destruct optional; (split; [reflexivity|split; discriminate])).
  transitivity (fieldOp ST optional (VMap m) (subs [f; d]) s = Ret r s').
  { destruct optional; reflexivity. }
  cbn [fieldOp map length]. rewrite F. cbn [Nat.ltb Nat.leb]. destruct (mget field m); [reflexivity|]. apply ret_ret.
Qed.
Theorem C38_field_exists : forall c (optional : bool) f field m s,
  isCond c (if optional then "optionalfield" else "mapfield") [f] -> val f = VStr field ->
  yields c (VMap m) s (VRes (match mget field m with Some _ => true | None => optional end)) s.
Proof.
  intros c optional f field m s C F. unfold yields. rewrite (cond_named _ _ _ _ C).
  apply named_plain; [destruct optional; (split; [reflexivity|split; discriminate])|].
  transitivity (fieldOp ST optional (VMap m) (subs [f]) s); [destruct optional; reflexivity|].
  cbn [fieldOp map length]. rewrite F. cbn [Nat.ltb Nat.leb]. destruct (mget field m); reflexivity.
Qed.

(** * Whole trees of conditions *)

(** the condition has the result [b], whatever the state is *)
Definition holds (c : node) (v : value) (b : bool) : Prop := forall s, exists s', yields c v s (VRes b) s'.
(** propositional reading of condition trees: and, or, not, ! are the connectives, list,
    map and fields quantify; every condition with a fixed result can be used as atom *)
Inductive means : node -> value -> bool -> Prop :=
| M_atom : forall c v b, holds c v b -> means c v b
| M_none : forall c v, val c = VNil -> means c v true
| M_and : forall c args v f, isCond c "and" args -> args <> [] ->
    (forall d, In d args -> means d v (f d)) -> means c v (forallb f args)
| M_or : forall c args v f, isCond c "or" args -> (2 <= length args)%nat ->
    (forall d, In d args -> means d v (f d)) -> means c v (existsb f args)
| M_not : forall c args v f, isCond c "not" args -> args <> [] ->
    (forall d, In d args -> means d v (f d)) -> means c v (negb (forallb f args))
| M_inverse : forall c c' op args v b, isCond c ("!" +++ op) args -> isCond c' op args ->
    op <> ""%string -> hasPrefix op "!" = false -> means c' v b -> means c v (negb b)
| M_list : forall c args l f, isCond c "list" args -> args <> [] ->
    (forall e d, In e l -> In d args -> means d (val e) (f e d)) ->
    means c (VList l) (forallb (fun e => forallb (f e) args) l)
| M_map : forall c d m f, isCond c "map" [d] ->
    (forall k e, In (k, e) m -> means d (val e) (f k)) ->
    means c (VMap m) (forallb (fun kv => f (fst kv)) m)
| M_map_keys : forall c dk d m g f, isCond c "map" [dk; d] ->
    (forall k e, In (k, e) m -> means dk (VStr k) (g k)) ->
    (forall k e, In (k, e) m -> means d (val e) (f k)) ->
    means c (VMap m) (forallb (fun kv => g (fst kv) && f (fst kv)) m)
| M_field : forall c (optional : bool) f field d m n b,
    isCond c (if optional then "optionalfield" else "mapfield") [f; d] -> val f = VStr field ->
    mget field m = Some n -> means d (val n) b -> means c (VMap m) b
| M_no_field : forall c (optional : bool) f field d m,
    isCond c (if optional then "optionalfield" else "mapfield") [f; d] -> val f = VStr field ->
    mget field m = None -> means c (VMap m) optional.

Lemma chain_holds : forall (f : node -> bool) args v, (forall d, In d args -> holds d v (f d)) ->
  forall s, exists s', allSubs ST (subs args) v s = Ret (VRes (forallb f args)) s'.
Proof.
  intros f args v. induction args as [|c l IH]; intros H s; cbn [map allSubs forallb].
  - now exists s.
  - destruct (H c (or_introl eq_refl) s) as [s1 E]. unfold bind. unfold yields in E. rewrite E.
    destruct (f c); cbn [andb]; [apply IH; intros; apply H; now right|]. now exists s1.
Qed.
Lemma any_holds : forall (f : node -> bool) args v, (forall d, In d args -> holds d v (f d)) ->
  forall s, exists s', anySub ST (subs args) v s = Ret (VRes (existsb f args)) s'.
Proof.
  intros f args v. induction args as [|c l IH]; intros H s; cbn [map anySub existsb].
  - now exists s.
  - destruct (H c (or_introl eq_refl) s) as [s1 E]. unfold bind. unfold yields in E. rewrite E.
    destruct (f c); cbn [orb]; [now exists s1|]. apply IH; intros; apply H; now right.
Qed.
Lemma entries_hold : forall (f : node -> node -> bool) args l,
  (forall e d, In e l -> In d args -> holds d (val e) (f e d)) ->
  forall s, exists s', allEntries ST l (subs args) s = Ret (VRes (forallb (fun e => forallb (f e) args) l)) s'.
Proof.
  intros f args l. induction l as [|e l IH]; intros H s; cbn [allEntries forallb].
  - now exists s.
  - destruct (chain_holds (f e) args (val e) (fun d I => H e d (or_introl eq_refl) I) s) as [s1 E]. unfold bind. rewrite E.
    destruct (forallb (f e) args); cbn [andb]; [apply IH; intros; apply H; [now right|assumption]|]. now exists s1.
Qed.
Lemma fields_hold : forall (g f : string -> bool) (ck : option node) d m,
  (forall k e, In (k, e) m -> match ck with Some c => holds c (VStr k) (g k) | None => g k = true end /\ holds d (val e) (f k)) ->
  forall s, exists s', allFields ST m (option_map (fun c => (c, condition c)) ck) (d, condition d) s
                       = Ret (VRes (forallb (fun kv => g (fst kv) && f (fst kv)) m)) s'.
Proof.
  intros g f ck d m. induction m as [|[k e] m IH]; intros H s; cbn [allFields forallb fst].
  - now exists s.
  - destruct (H k e (or_introl eq_refl)) as [A B].
    match goal with |- context [bind ST ?m _ s] => assert (X : exists s1, m s = Ret (VRes (g k)) s1) end.
    { destruct ck as [c|]; cbn [option_map]; [apply A|]. rewrite A. now exists s. }
    destruct X as [s1 X]. unfold bind at 1. rewrite X. destruct (g k); cbn [andb]; [|now exists s1].
    destruct (B s1) as [s2 Y]. unfold bind. cbn [snd]. unfold yields in Y. rewrite Y.
    destruct (f k); cbn [andb]; [apply IH; intros; apply H; now right|]. now exists s2.
Qed.
Lemma forallb_perm {A} (f : A -> bool) l l' : Permutation l l' -> forallb f l = forallb f l'.
Proof.
  induction 1; cbn; try congruence. destruct (f x), (f y); reflexivity.
Qed.

(** C38: every tree of conditions yields what propositional logic says, in every
    state and for every order of traversal of the maps *)
Theorem C38_logic : (forall m, Permutation m (traverse m)) -> forall c v b, means c v b -> holds c v b.
Proof.
  intros HT c v b H. induction H as [c v b H|c v V|c args v f C NE HA IH|c args v f C NE HA IH|c args v f C NE HA IH
    |c c' op args v b C C' NE NB HA IH|c args l f C NE HA IH|c d m f C HA IH|c dk d m g f C HA IHk HB IHe|c optional f field d m n b C F G HA IH|c optional f field d m C F G]; intro s.
  - apply H.
  - exists s. unfold yields. rewrite condition_eq, V. reflexivity.
  - destruct (chain_holds f args v IH s) as [s' E]. exists s'. unfold yields. rewrite (cond_named _ _ _ v C).
    apply named_plain; [split; [reflexivity|split; discriminate]|]. destruct args; [congruence|exact E].
  - destruct (any_holds f args v IH s) as [s' E]. exists s'. unfold yields. rewrite (cond_named _ _ _ v C).
    apply named_plain; [split; [reflexivity|split; discriminate]|]. destruct args as [|? [|]]; cbn in NE; try lia. exact E.
  - destruct (chain_holds f args v IH s) as [s' E]. exists s'.
    set (c' := mkNode (VList (mkNode (VStr "and") emptyAnn "" None None :: args)) emptyAnn "" None None).
    assert (C' : isCond c' "and" args) by (eexists; split; reflexivity).
    apply (C38_not c c' args v s s' _ C C'). rewrite Bool.negb_involutive.
    unfold yields. rewrite (cond_named _ _ _ v C').
    apply named_plain; [split; [reflexivity|split; discriminate]|]. destruct args; [congruence|exact E].
  - destruct (IH s) as [s' E]. exists s'. apply (C38_inverse c c' op args); auto. now rewrite Bool.negb_involutive.
  - destruct (entries_hold f args l IH s) as [s' E]. exists s'. unfold yields. rewrite (cond_named _ _ _ _ C).
    apply named_plain; [split; [reflexivity|split; discriminate]|]. destruct args; [congruence|exact E].
  - destruct (fields_hold (fun _ => true) f None d (traverse m)) with (s := s) as [s' E].
    { intros k e I. split; [reflexivity|]. apply (IH k e). apply (Permutation_in _ (Permutation_sym (HT m)) I). }
    exists s'. unfold yields. rewrite (cond_named _ _ _ _ C).
    apply named_plain; [split; [reflexivity|split; discriminate]|].
    rewrite <- (forallb_perm _ _ _ (HT m)) in E. exact E.
  - destruct (fields_hold g f (Some dk) d (traverse m)) with (s := s) as [s' E].
    { intros k e I. apply (Permutation_in _ (Permutation_sym (HT m))) in I. split; [apply (IHk k e I)|apply (IHe k e I)]. }
    exists s'. unfold yields. rewrite (cond_named _ _ _ _ C).
    apply named_plain; [split; [reflexivity|split; discriminate]|].
    rewrite <- (forallb_perm _ _ _ (HT m)) in E. exact E.
  - destruct (IH s) as [s' E]. exists s'. apply (C38_field c optional f field d m s _ s' C F). now rewrite G.
  - exists s. apply (C38_field c optional f field d m s _ s C F). now rewrite G.
Qed.

(** * C38: single checks *)

(** type: one of the given names is the type of the value *)
Theorem C38_type : forall c args names v s, isCond c "type" args -> map val args = map VStr names ->
  exists b, yields c v s (VRes b) s /\ (b = true <-> In (typeName v) names).
Proof.
  intros c args names v s C A. exists (existsb (fun n => String.eqb n (typeName v)) names). split.
  - unfold yields. rewrite (cond_named _ _ _ _ C). apply named_plain; [split; [reflexivity|split; discriminate]|].
    change (typeOp ST v (subs args) s = Ret (VRes (existsb (fun n => String.eqb n (typeName v)) names)) s).
    clear C. revert args A. induction names as [|n names IH]; intros args A; destruct args as [|a args]; try discriminate.
    + reflexivity.
    + cbn [map] in A. inversion A as [[A1 A2]]. cbn [map typeOp existsb]. rewrite A1.
      destruct (String.eqb n (typeName v)); [reflexivity|]. now apply IH.
  - rewrite existsb_exists. split.
    + intros (n & I & E). apply String.eqb_eq in E. now subst.
    + intro I. exists (typeName v). split; [exact I|apply String.eqb_refl].
Qed.
(** the comparisons of integers and of texts *)
Definition ordName (o : vcmp) (name : string) : Prop :=
  match o with
  | CGt => name = "gt" \/ name = ">"
  | CLt => name = "lt" \/ name = "<"
  | CGe => name = "ge" \/ name = ">="
  | CLe => name = "le" \/ name = "<="
  end%string.
Lemma ord_yields : forall c o name a v b s, isCond c name [a] -> ordName o name ->
  cmpValues o v (val a) = Some b -> yields c v s (VRes b) s.
Proof.
  intros c o name a v b s C O E. unfold yields. rewrite (cond_named _ _ _ _ C).
  apply named_plain; [destruct o; destruct O as [-> | ->]; (split; [reflexivity|split; discriminate])|].
  transitivity (match cmpValues o v (val a) with Some b => res ST b | None => verr ST end s).
  - destruct o; destruct O as [-> | ->]; reflexivity.
  - now rewrite E.
Qed.
Theorem C38_order_int : forall c o name a x y s, isCond c name [a] -> ordName o name -> val a = VInt y ->
  exists b, yields c (VInt x) s (VRes b) s /\
    (b = true <-> match o with CGt => x > y | CLt => x < y | CGe => x >= y | CLe => x <= y end).
Proof.
  intros c o name a x y s C O E. eexists. split; [eapply ord_yields; eauto; rewrite E; reflexivity|].
  destruct o; cbn; destruct (Z.compare_spec x y); split; intro; try discriminate; try reflexivity; lia.
Qed.
Theorem C38_order_text : forall c o name a x y s, isCond c name [a] -> ordName o name -> val a = VStr y ->
  exists b, yields c (VStr x) s (VRes b) s /\
    (b = true <-> match o with
                  | CGt => String.compare y x = Lt | CLt => String.compare x y = Lt
                  | CGe => x = y \/ String.compare y x = Lt | CLe => x = y \/ String.compare x y = Lt
                  end).
Proof.
  intros c o name a x y s C O E. eexists. split; [eapply ord_yields; eauto; rewrite E; reflexivity|].
  pose proof (scmp_eq x y) as Q. pose proof (scmp_gt x y) as G.
  destruct o; cbn; destruct (String.compare x y) eqn:D; split; intro H; try discriminate; try reflexivity; try tauto;
    try (apply G in H; congruence); try (destruct H as [H|H]; [apply Q in H|apply G in H]; congruence);
    try (destruct H as [H|H]; [apply Q in H|]; congruence).
Qed.
(** valueset, value: equality as the operator == has it *)
Theorem C38_valueset : forall c a l v s, isCond c "valueset" [a] -> val a = VList l ->
  exists b, yields c v s (VRes b) s /\
    (b = true <-> exists e, In e l /\ fst (compareEquals lambdaText v (val e)) = true).
Proof.
  intros c a l v s C E. exists (existsb (fun e => fst (compareEquals lambdaText v (val e))) l). split.
  - unfold yields. rewrite (cond_named _ _ _ _ C). apply named_plain; [split; [reflexivity|split; discriminate]|].
    transitivity (match val a with
                  | VList l => res ST (existsb (fun v' => fst (compareEquals lambdaText v (val v'))) l)
                  | _ => verr ST end s); [reflexivity|]. now rewrite E.
  - apply existsb_exists.
Qed.

(** * C38: lambda expressions as conditions *)
(** a condition with a lambda: alone or in a list with further arguments *)
Definition isLambdaCond (c : node) (lm : lam) (args : list node) : Prop :=
  (val c = lamVal lm /\ args = []) \/ exists n, val c = VList (n :: args) /\ val n = lamVal lm.
(** what the answer of the lambda says: a value, or a list of the value and up to two
    messages, which are texts *)
Inductive verdict : value -> option bool -> Prop :=
| V_value w : (forall l, w <> VList l) -> verdict w (Some (toBool w))
| V_list x ms : (length ms <= 2)%nat -> Forall (fun m => isText (val m) = true) ms -> verdict (VList (x :: ms)) (Some (toBool (val x)))
| V_empty : verdict (VList []) None
| V_many x ms : (2 < length ms)%nat -> verdict (VList (x :: ms)) None
| V_message x ms m : In m ms -> isText (val m) = false -> verdict (VList (x :: ms)) None.
Lemma verdict_result : forall w r, verdict w r -> lambdaResult w = match r with Some b => VRes b | None => VErr end.
Proof.
  intros w r [w' NL|x ms L F| |x ms L|x ms m I T].
  - destruct w'; try reflexivity. now destruct (NL l).
  - destruct ms as [|t [|f [|]]]; cbn in L; try lia; inversion F; subst; cbn; [reflexivity|now rewrite H1|].
    inversion H2; subst. now rewrite H1, H3.
  - reflexivity.
  - destruct ms as [|t [|f [|]]]; cbn in L; try lia. reflexivity.
  - destruct ms as [|t [|f [|]]]; cbn in I |- *; [destruct I| | |reflexivity].
    + destruct I as [<-|[]]. now rewrite T.
    + destruct I as [<-|[<-|[]]]; rewrite T; [reflexivity|now rewrite Bool.andb_false_r].
Qed.
Lemma lambda_cond : forall c lm args v, isLambdaCond c lm args ->
  condition c v = lambdaCond ST rec env lm v (subs args).
Proof.
  intros c lm args v [[E ->]|(n & E & F)]; rewrite condition_eq, E.
  - now destruct lm.
  - rewrite F. now destruct lm.
Qed.
(** A lambda is applied to the value and the further arguments; their number must be
    the number of its parameters. *)
Theorem C38_lambda_count : forall c lm args v s, isLambdaCond c lm args -> length (l_ps lm) <> S (length args) ->
  yields c v s VErr s.
Proof.
  intros c lm args v s C L. unfold yields. rewrite (lambda_cond _ _ _ _ C). unfold lambdaCond. rewrite map_length.
  now rewrite (proj2 (Nat.eqb_neq _ _) L).
Qed.
Theorem C38_lambda : forall c lm args v s inp w i s' r, isLambdaCond c lm args -> length (l_ps lm) = S (length args) ->
  lambdaPrepare lm false false [] (v :: map val args) (b_source env) = LBody inp ->
  rec (l_body lm) (withLocalScope (mset SELF (resolverNode (dnode (lamVal lm) (b_source env)) (l_res lm)) inp) env) false s = Ret (w, i, true) s' ->
  (forall e, w <> VExpr e) -> verdict w r ->
  yields c v s (match r with Some b => VRes b | None => VErr end) s'.
Proof.
  intros c lm args v s inp w i s' r C L P E V D. unfold yields. rewrite (lambda_cond _ _ _ _ C). unfold lambdaCond. rewrite map_length.
  rewrite (proj2 (Nat.eqb_eq _ _) L). cbn [negb].
  replace (map (fun a : node * (value -> M ST vres) => val (fst a)) (subs args)) with (map val args) by (rewrite map_map; reflexivity).
  unfold bind, lambdaEval. rewrite P. unfold bind. rewrite E.
  unfold ret. cbn [negb]. destruct w; try (now destruct (V e)); now rewrite (verdict_result _ _ D).
Qed.
(** a lambda whose body waits leaves the condition open, a failing one is an error *)
Theorem C38_lambda_open : forall c lm args v s inp w i ok s', isLambdaCond c lm args -> length (l_ps lm) = S (length args) ->
  lambdaPrepare lm false false [] (v :: map val args) (b_source env) = LBody inp ->
  rec (l_body lm) (withLocalScope (mset SELF (resolverNode (dnode (lamVal lm) (b_source env)) (l_res lm)) inp) env) false s = Ret (w, i, ok) s' ->
  (ok = true /\ (exists e, w = VExpr e) -> yields c v s VUnres s') /\ (ok = false -> yields c v s VErr s').
Proof.
  intros c lm args v s inp w i ok s' C L P E. unfold yields. rewrite (lambda_cond _ _ _ _ C). unfold lambdaCond. rewrite map_length.
  rewrite (proj2 (Nat.eqb_eq _ _) L). cbn [negb].
  replace (map (fun a : node * (value -> M ST vres) => val (fst a)) (subs args)) with (map val args) by (rewrite map_map; reflexivity).
  unfold bind, lambdaEval. rewrite P. unfold bind. rewrite E.
  unfold ret. split; [intros [-> [e ->]]; reflexivity|intros ->; reflexivity].
Qed.

(** * C38: validate and check *)
Definition conj (conds : list value) : node :=
  mkNode (VList (mkNode (VStr "and") emptyAnn "" None None :: map (fun c => dnode c (b_source env)) conds)) emptyAnn "" None None.
Notation func_validate := (func_validate ST lambdaText N regex registered rec env traverse).
Notation func_check := (func_check ST lambdaText N regex registered rec env traverse).
Notation conditions := (conditions ST lambdaText N regex registered rec env traverse).
Lemma conditions_conj : forall conds v, conds <> [] -> forall s r s',
  conditions conds v s = Ret r s' <-> yields (conj conds) v s r s'.
Proof.
  intros conds v NE s r s'. unfold yields.
  rewrite (cond_named (conj conds) "and" (map (fun c => dnode c (b_source env)) conds) v) by (eexists; split; reflexivity).
  rewrite named_plain by (split; [reflexivity|split; discriminate]).
  transitivity (allSubs ST (subs (map (fun c => dnode c (b_source env)) conds)) v s = Ret r s').
  2:{ destruct conds; [congruence|reflexivity]. }
  clear NE. revert s. induction conds as [|c l IH]; intro s; [reflexivity|]. cbn [conditions map allSubs].
  rewrite !bind_ret. split; intros (x & s1 & E & H); exists x, s1; (split; [exact E|]);
    destruct x as [| |[|]]; auto; now apply IH.
Qed.
(** validate returns its value if all conditions hold and fails otherwise; check
    returns whether they do; both fail for an erroneous condition and wait for
    an unresolved one *)
Theorem C38_functions : forall v conds s r s', conds <> [] -> yields (conj conds) v s r s' ->
  (exists i j, func_validate (v :: conds) s = Ret (match r with
     | VRes true => (true, (v, i, true)) | VUnres => (false, (VNil, i, true)) | _ => (true, (VNil, j, false)) end) s')
  /\ (exists i j, func_check (v :: conds) s = Ret (match r with
     | VRes b => (true, (VBool b, i, true)) | VUnres => (false, (VNil, i, true)) | VErr => (true, (VNil, j, false)) end) s').
Proof.
  intros v conds s r s' NE Y. apply conditions_conj in Y; [|exact NE]. destruct conds as [|c l]; [congruence|].
  split; eexists; eexists; unfold Validate.func_validate, Validate.func_check, bind; rewrite Y;
    destruct r as [| |[|]]; reflexivity.
Qed.
End C38.

(** * DNS names *)
Theorem C38_dnslabel : forall s, isDNSLabel s = true <->
  (String.length s <= 63)%nat /\ s <> ""%string
  /\ (forall c, In c (chars s) -> alnum c = true \/ c = "-"%char)
  /\ (forall r, chars s <> "-"%char :: r) /\ (forall r, chars s <> r ++ ["-"%char]).
Proof.
  intro s. unfold isDNSLabel, matchLabel. rewrite Bool.andb_true_iff, Nat.leb_le.
  split; intros [L H]; (split; [exact L|]).
  - destruct s as [|c s]; [discriminate|]. cbn [chars list_ascii_of_string] in *. rewrite !Bool.andb_true_iff in H.
    destruct H as [[A B] C]. rewrite forallb_forall in C. split; [discriminate|]. split; [|split].
    + intros d [<-|I]; [now left|]. specialize (C d I). apply Bool.orb_true_iff in C. destruct C as [C|C]; [now left|].
      right. now apply Ascii.eqb_eq.
    + intros r E. inversion E. subst. discriminate.
    + intros r E. destruct r as [|x r]; inversion E; subst; [discriminate|].
      rewrite H1 in B.
      rewrite last_last in B. discriminate.
  - destruct H as (NE & A & B & C). destruct s as [|c s]; [congruence|].
    assert (HC : alnum c = true). { destruct (A c (or_introl eq_refl)) as [X|X]; [exact X|]. subst. now elim (B (chars s)). }
    cbn [chars list_ascii_of_string]. rewrite !Bool.andb_true_iff. split; [split; [exact HC|]|].
    + destruct (list_ascii_of_string s) as [|x l] eqn:E using rev_ind; [exact HC|]. clear IHl. rewrite last_last.
      destruct (A x) as [X|X]; [right; change (In x (list_ascii_of_string s)); rewrite E; apply in_or_app; right; now left|exact X|].
      subst. elim (C (c :: l)). cbn. now rewrite E.
    + apply forallb_forall. intros d I. apply Bool.orb_true_iff. destruct (A d (or_intror I)) as [X|X]; [now left|].
      right. now apply Ascii.eqb_eq.
Qed.

(** * Examples *)
Definition nv (v : value) : node := newNode v "".
Definition lst (l : list node) : node := nv (VList l).
Definition tx (s : string) : node := nv (VStr s).
Definition noRec (e : expr) (b : binding) (l : bool) : M unit R := ret unit (VNil, defaultInfo, false).
Definition exCond (c : node) (v : value) : Flow.res unit vres :=
  condition unit (fun _ => ""%string) net0 (fun _ => None) (fun _ => None) noRec (env0 []) (fun m => m) c v tt.
(** and, or, not, !, list, mapfield on concrete values *)
Definition exTree : node :=
  lst [tx "and"; lst [tx "mapfield"; tx "a"; lst [tx "or"; lst [tx ">"; nv (VInt 3)]; lst [tx "not"; lst [tx "type"; tx "int"]]]];
       lst [tx "optionalfield"; tx "b"; lst [tx "list"; lst [tx "!empty"]]]].
Definition exMap (a : value) (b : list node) : value := VMap [("a"%string, nv a); ("b"%string, lst b)].
Example C38_tree :
  exCond exTree (exMap (VInt 4) [tx "x"; tx "y"]) = Ret (VRes true) tt
  /\ exCond exTree (exMap (VInt 2) [tx "x"]) = Ret (VRes false) tt
  /\ exCond exTree (exMap (VInt 5) [tx "x"; tx ""]) = Ret (VRes false) tt
  /\ exCond exTree (VMap []) = Ret (VRes false) tt
  /\ exCond (lst [tx "or"; lst [tx ">"; nv (VInt 3)]]) (VInt 1) = Ret (VRes true) tt
  /\ exCond (lst [tx "or"; lst [tx ">"; nv (VInt 3)]; lst [tx "<"; nv (VInt 0)]]) (VInt 1) = Ret (VRes false) tt
  /\ exCond (lst [tx "!!list"]) (VList []) = Ret VErr tt.
Proof. vm_compute. repeat split. Qed.
(** the order in which a map is traversed matters if a condition is erroneous *)
Theorem C38_map_order_refuted : exists c m t t',
  (forall x, Permutation x (t x)) /\ (forall x, Permutation x (t' x)) /\
  condition unit (fun _ => ""%string) net0 (fun _ => None) (fun _ => None) noRec (env0 []) t c (VMap m) tt = Ret (VRes false) tt /\
  condition unit (fun _ => ""%string) net0 (fun _ => None) (fun _ => None) noRec (env0 []) t' c (VMap m) tt = Ret VErr tt.
Proof.
  exists (lst [tx "map"; lst [tx ">"; nv (VInt 3)]]), [("a"%string, nv (VInt 1)); ("b"%string, tx "x")], (fun m => m), (fun m => rev m).
  split; [auto|]. split; [intro; apply Permutation_rev|]. split; reflexivity.
Qed.

Print Assumptions C38_and.
Print Assumptions C38_or.
Print Assumptions C38_or_single_refuted.
Print Assumptions C38_not.
Print Assumptions C38_not_single.
Print Assumptions C38_inverse.
Print Assumptions C38_double_inverse_refuted.
Print Assumptions C38_list.
Print Assumptions C38_containers.
Print Assumptions C38_field.
Print Assumptions C38_field_exists.
Print Assumptions C38_logic.
Print Assumptions C38_type.
Print Assumptions C38_order_int.
Print Assumptions C38_order_text.
Print Assumptions C38_valueset.
Print Assumptions C38_functions.
Print Assumptions C38_dnslabel.
Print Assumptions C38_map_order_refuted.

Print Assumptions C38_lambda_count.
Print Assumptions C38_lambda.
Print Assumptions C38_lambda_open.
