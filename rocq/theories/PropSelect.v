(** C36: which control a map denotes and what if, switch, type and merge select. *)
From Coq Require Import Lia.
From Verif Require Import Core Str Interp Find Cleanup Unresolved DeepEq Equiv Env Flow Eval Control Engine.
From Verif Require Import CoreFacts StrFacts PropFix World0 PropControl.
Import ListNotations.

(** ** Specification *)
(** the names of the controls and their options *)
Definition isControlName (c : string) : Prop := In c ["for"; "if"; "merge"; "switch"; "type"]%string.
Inductive optionOf : string -> string -> Prop :=
| OO_do : optionOf "for" "do" | OO_mapkey : optionOf "for" "mapkey"
| OO_then : optionOf "if" "then" | OO_else : optionOf "if" "else"
| OO_default : optionOf "switch" "default" | OO_cases : optionOf "switch" "cases"
| OO_tdefault : optionOf "type" "default".
(** the keys << (merge), <<< and <<!… are no control keys *)
Definition otherName (n : string) : Prop := n = ""%string \/ n = "<"%string \/ exists r, n = ("!" +++ r)%string.

Lemma ctlName_other : forall n, ctlName n = false <-> otherName n.
Proof.
  intro n. unfold ctlName, otherName. rewrite <- hasPrefix_spec.
  destruct (String.eqb_spec n ""), (String.eqb_spec n "<"), (hasPrefix n "!"); cbn; split; intro H; try reflexivity; try discriminate; auto.
  destruct H as [H|[H|H]]; congruence.
Qed.
Lemma control_lookup : forall c, isControlName c <-> r_lookup stdReg c = Some true.
Proof.
  intro c. unfold stdReg. cbn [r_lookup]. split.
  - intro H. unfold isControlName in H. cbn [In] in H. decompose [or] H; subst; try reflexivity. contradiction.
  - unfold controls. cbn [ctlOptions]. unfold isControlName. cbn [In].
    destruct (String.eqb_spec "for" c); [auto|]. destruct (String.eqb_spec "if" c); [auto|].
    destruct (String.eqb_spec "merge" c); [auto|]. destruct (String.eqb_spec "switch" c); [auto|].
    destruct (String.eqb_spec "type" c); [auto 10|].
    match goal with |- (if ?b then _ else _) = _ -> _ => destruct b; discriminate end.
Qed.
Lemma option_lookup : forall o, (exists c, optionOf c o) <-> r_lookup stdReg o = Some false.
Proof.
  intro o. split.
  - intros [c H]. destruct H; reflexivity.
  - unfold stdReg. cbn [r_lookup]. unfold controls. cbn [ctlOptions existsb snd].
    destruct (String.eqb "for" o); [discriminate|]. destruct (String.eqb "if" o); [discriminate|].
    destruct (String.eqb "merge" o); [discriminate|]. destruct (String.eqb "switch" o); [discriminate|].
    destruct (String.eqb "type" o); [discriminate|].
    destruct (String.eqb_spec o "do"); [subst; eexists; constructor|].
    destruct (String.eqb_spec o "mapkey"); [subst; eexists; constructor|].
    destruct (String.eqb_spec o "then"); [subst; eexists; constructor|].
    destruct (String.eqb_spec o "else"); [subst; eexists; constructor|].
    destruct (String.eqb_spec o "default"); [subst; eexists; apply OO_default|].
    destruct (String.eqb_spec o "cases"); [subst; eexists; constructor|]. discriminate.
Qed.
Lemma option_check : forall c o, isControlName c -> (r_option stdReg c o = true <-> optionOf c o).
Proof.
  intros c o H. unfold isControlName in H. cbn [In] in H. unfold stdReg. cbn [r_option].
  split.
  - intro E. decompose [or] H; subst; cbn [ctlOptions controls String.eqb existsb] in E; try contradiction; cbn in E;
    repeat match type of E with
    | (if ?b then _ else _) = true => idtac
    | String.eqb o ?x || _ = true => destruct (String.eqb_spec o x); [subst; constructor|cbn [orb] in E]
    | false = true => discriminate
    end.
  - destruct 1; reflexivity.
Qed.

(** ** The control of a map *)
Lemma ctlKey_some : forall k n, ctlKey k = Some n <-> k = ("<<" +++ n)%string.
Proof.
  intros k n. unfold ctlKey. split.
  - destruct (hasPrefix k "<<") eqn:H; [|discriminate]. apply hasPrefix_spec in H. destruct H as [r ->].
    intro E. assert (E' : sdrop 2 ("<<" +++ r) = n) by congruence. change 2%nat with (String.length "<<") in E'. rewrite sdrop_app in E'. now subst.
  - intros ->. assert (H : hasPrefix ("<<" +++ n) "<<" = true) by (apply hasPrefix_spec; eauto). rewrite H.
    change 2%nat with (String.length "<<"). now rewrite sdrop_app.
Qed.
Lemma ctlKey_none : forall k, ctlKey k = None <-> forall n, k <> ("<<" +++ n)%string.
Proof.
  intro k. split.
  - intros H n E. apply ctlKey_some in E. congruence.
  - intro H. destruct (ctlKey k) as [n|] eqn:E; [|reflexivity]. apply ctlKey_some in E. now destruct (H n).
Qed.
Lemma append_inj : forall a b c : string, ("<<" +++ b)%string = ("<<" +++ c)%string -> b = c.
Proof. intros a b c H. cbn in H. congruence. Qed.

Section Scan.
Notation scan := (scanControl stdReg).
(** a key the scan stops at *)
Definition unknownKey (k : string) : Prop := exists n, k = ("<<" +++ n)%string /\ ~ otherName n /\ ~ isControlName n /\ ~ (exists c, optionOf c n).
Definition controlKey (k c : string) : Prop := k = ("<<" +++ c)%string /\ isControlName c.
Definition optionKey (k o : string) : Prop := k = ("<<" +++ o)%string /\ exists c, optionOf c o.

Lemma control_not_other : forall c, isControlName c -> ctlName c = true.
Proof. intros c H. unfold isControlName in H. cbn [In] in H. decompose [or] H; subst; try reflexivity. contradiction. Qed.
Lemma option_not_other : forall o, (exists c, optionOf c o) -> ctlName o = true.
Proof. intros o [c H]. destruct H; reflexivity. Qed.
(** the kinds of keys *)
Lemma key_kinds : forall k,
  (ctlKey k = None) \/
  (exists n, ctlKey k = Some n /\ otherName n /\ ctlName n = false) \/
  (exists c, controlKey k c /\ ctlKey k = Some c /\ ctlName c = true /\ r_lookup stdReg c = Some true) \/
  (exists o, optionKey k o /\ ctlKey k = Some o /\ ctlName o = true /\ r_lookup stdReg o = Some false) \/
  (unknownKey k /\ exists n, ctlKey k = Some n /\ ctlName n = true /\ r_lookup stdReg n = None).
Proof.
  intro k. destruct (ctlKey k) as [n|] eqn:E; [right|now left].
  pose proof (proj1 (ctlKey_some _ _) E) as EK.
  destruct (ctlName n) eqn:C.
  - destruct (r_lookup stdReg n) as [[|]|] eqn:L; right.
    + left. exists n. repeat split; auto. now apply control_lookup.
    + right. left. exists n. repeat split; auto. now apply option_lookup.
    + right. right. split; [|eauto]. exists n. repeat split; auto.
      * intro O. apply ctlName_other in O. congruence.
      * intro I. apply control_lookup in I. congruence.
      * intro I. apply option_lookup in I. congruence.
  - left. exists n. repeat split; auto. now apply ctlName_other.
Qed.

Lemma scan_unknown : forall m ctl o f, (exists k v, In (k, v) m /\ unknownKey k) -> scan m ctl o f = None.
Proof.
  induction m as [|[k v] m IH]; intros ctl o f [k' [v' [I U]]]; [destruct I|].
  cbn [scanControl]. destruct I as [E|I].
  - inversion E; subst. destruct U as [n [-> [A [B C]]]].
    rewrite (proj2 (ctlKey_some _ n) eq_refl).
    destruct (ctlName n) eqn:Cn; [|apply ctlName_other in Cn; contradiction].
    destruct (r_lookup stdReg n) as [[|]|] eqn:L; [|exfalso|reflexivity].
    + exfalso. apply B. now apply control_lookup.
    + apply C. now apply option_lookup.
  - assert (X : exists k v, In (k, v) m /\ unknownKey k) by eauto.
    destruct (ctlKey k) as [n|]; [|now apply IH]. destruct (ctlName n); [|now apply IH].
    destruct (r_lookup stdReg n) as [[|]|]; [destruct ctl; [reflexivity|]| |reflexivity]; now apply IH.
Qed.
Lemma scan_second : forall m x o f, (exists k v c, In (k, v) m /\ controlKey k c) -> scan m (Some x) o f = None.
Proof.
  induction m as [|[k v] m IH]; intros x o f [k' [v' [c [I [E C]]]]]; [destruct I|].
  cbn [scanControl]. destruct I as [Q|I].
  - inversion Q; subst. rewrite (proj2 (ctlKey_some _ c) eq_refl), (control_not_other _ C).
    now rewrite (proj1 (control_lookup c) C).
  - assert (X : exists k v c, In (k, v) m /\ controlKey k c) by (exists k', v', c; repeat split; auto).
    destruct (ctlKey k) as [n|]; [|now apply IH]. destruct (ctlName n); [|now apply IH].
    destruct (r_lookup stdReg n) as [[|]|]; [reflexivity| |reflexivity]; now apply IH.
Qed.
Lemma scan_two : forall m o f k1 v1 c1 k2 v2 c2, In (k1, v1) m -> In (k2, v2) m -> k1 <> k2 ->
  controlKey k1 c1 -> controlKey k2 c2 -> scan m None o f = None.
Proof.
  induction m as [|[k v] m IH]; intros o f k1 v1 c1 k2 v2 c2 I1 I2 N C1 C2; [destruct I1|].
  cbn [scanControl]. destruct I1 as [E1|I1], I2 as [E2|I2].
  - congruence.
  - inversion E1; subst. destruct C1 as [-> C1]. rewrite (proj2 (ctlKey_some _ c1) eq_refl), (control_not_other _ C1), (proj1 (control_lookup _) C1).
    apply scan_second. eauto.
  - inversion E2; subst. destruct C2 as [-> C2]. rewrite (proj2 (ctlKey_some _ c2) eq_refl), (control_not_other _ C2), (proj1 (control_lookup _) C2).
    apply scan_second. eauto.
  - assert (G : forall o f, scan m None o f = None) by (intros; eapply (IH o0 f0 k1 v1 c1 k2 v2 c2); eauto).
    destruct (ctlKey k) as [n|]; [|apply G]. destruct (ctlName n); [|apply G].
    destruct (r_lookup stdReg n) as [[|]|]; [|apply G|reflexivity]. apply scan_second. eauto.
Qed.
(** what the scan collects; the keys of the map are distinct *)
Lemma scan_collect : forall m ctl o f ctl' o' f', NoDup (mkeys m) -> scan m ctl o f = Some (ctl', o', f') ->
  (forall x, mget x o' = match mget ("<<" +++ x) m with
                         | Some v => if ctlName x then match r_lookup stdReg x with Some false => Some v | _ => mget x o end else mget x o
                         | None => mget x o
                         end) /\
  (forall x, mget x f' = match ctlKey x, mget x m with None, Some v => Some v | _, _ => mget x f end) /\
  (forall c v, ctl' = Some (c, v) -> ctl = Some (c, v) \/ (mget ("<<" +++ c) m = Some v /\ isControlName c)) /\
  (ctl' = None -> ctl = None /\ forall k v c, In (k, v) m -> ~ controlKey k c) /\
  (forall k v, In (k, v) m -> ~ unknownKey k).
Proof.
  induction m as [|[k v] m IH]; intros ctl o f ctl' o' f' N H.
  - cbn in H. inversion H; subst. cbn [mget]. repeat split; auto; try (intros; contradiction).
    intro x. now destruct (ctlKey x).
  - cbn [mkeys map] in N. inversion N as [|? ? N1 N2]; subst. cbn [fst] in N1.
    assert (NG : mget k m = None) by (apply mget_None; exact N1).
    cbn [scanControl] in H.
    destruct (key_kinds k) as [E|[[n [E [O C]]]|[[c [CK [E [C L]]]]|[[op [OK [E [C L]]]]|[U [n [E [C L]]]]]]]]; rewrite E in H; try rewrite C in H; try rewrite L in H.
    + destruct (IH _ _ _ _ _ _ N2 H) as [A [B [D [F G]]]].
      assert (NK : forall x, String.eqb ("<<" +++ x) k = false).
      { intro x. apply String.eqb_neq. intro Q. subst k. now rewrite (proj2 (ctlKey_some _ x) eq_refl) in E. }
      repeat split.
      * intro x. rewrite A. cbn [mget]. now rewrite NK.
      * intro x. rewrite B. cbn [mget]. destruct (String.eqb_spec x k).
        -- subst. rewrite E, NG. rewrite mget_mset, String.eqb_refl. reflexivity.
        -- destruct (ctlKey x); [|destruct (mget x m); [reflexivity|]]; rewrite mget_mset; destruct (String.eqb_spec x k); congruence.
      * intros c0 v0 Q. destruct (D _ _ Q) as [X|[X Y]]; [now left|]. right. cbn [mget]. now rewrite NK.
      * match goal with Q : ctl' = None |- _ => exact (proj1 (F Q)) end.
      * intros k0 v0 c0 [Q|I] K; [|eapply F; eauto]. inversion Q; subst. destruct K as [-> _].
        now rewrite (proj2 (ctlKey_some _ c0) eq_refl) in E.
      * intros k0 v0 [Q|I] K; [|eapply G; eauto]. inversion Q; subst. destruct K as [n [-> _]].
        now rewrite (proj2 (ctlKey_some _ n) eq_refl) in E.
    + pose proof (proj1 (ctlKey_some _ _) E) as EK. destruct (IH _ _ _ _ _ _ N2 H) as [A [B [D [F G]]]]. repeat split.
      * intro x. rewrite A. cbn [mget]. destruct (String.eqb_spec ("<<" +++ x) k) as [Q|Q]; [|reflexivity].
        rewrite Q, NG. rewrite EK in Q. apply (append_inj ""%string) in Q. subst x. now rewrite C.
      * intro x. rewrite B. cbn [mget]. destruct (String.eqb_spec x k); [subst x; rewrite E|]; reflexivity.
      * intros c0 v0 Q. destruct (D _ _ Q) as [X|[X Y]]; [now left|]. right. cbn [mget].
        destruct (String.eqb_spec ("<<" +++ c0) k) as [Z|Z]; [rewrite Z in X; congruence|]. now split.
      * match goal with Q : ctl' = None |- _ => exact (proj1 (F Q)) end.
      * intros k0 v0 c0 [Q|I] K; [|eapply F; eauto]. inversion Q; subst k0 v0. destruct K as [Z K]. rewrite EK in Z. apply (append_inj ""%string) in Z. subst c0.
        apply control_not_other in K. congruence.
      * intros k0 v0 [Q|I] K; [|eapply G; eauto]. inversion Q; subst k0 v0. destruct K as [n' [Z [K _]]]. rewrite EK in Z. apply (append_inj ""%string) in Z. subst n'. contradiction.
    + destruct CK as [EK K]. destruct ctl as [x|]; [discriminate|]. destruct (IH _ _ _ _ _ _ N2 H) as [A [B [D [F G]]]]. repeat split.
      * intro x. rewrite A. cbn [mget]. destruct (String.eqb_spec ("<<" +++ x) k) as [Q|Q]; [|reflexivity].
        rewrite Q, NG. rewrite EK in Q. apply (append_inj ""%string) in Q. subst x. now rewrite C, L.
      * intro x. rewrite B. cbn [mget]. destruct (String.eqb_spec x k); [subst x; rewrite E|]; reflexivity.
      * intros c0 v0 Q. right. destruct (D _ _ Q) as [X|[X Y]].
        -- inversion X; subst c0 v0. cbn [mget]. rewrite EK, String.eqb_refl. now split.
        -- cbn [mget]. destruct (String.eqb_spec ("<<" +++ c0) k) as [Z|Z]; [rewrite Z in X; congruence|]. now split.
      * match goal with Q : ctl' = None |- _ => destruct (F Q); discriminate end.
      * intros k0 v0 [Q|I] Y; [|eapply G; eauto]. inversion Q; subst k0 v0. destruct Y as [n' [Z [_ [Y _]]]]. rewrite EK in Z. apply (append_inj ""%string) in Z. subst n'. contradiction.
    + destruct OK as [EK K]. destruct (IH _ _ _ _ _ _ N2 H) as [A [B [D [F G]]]]. repeat split.
      * intro x. rewrite A. cbn [mget]. destruct (String.eqb_spec ("<<" +++ x) k) as [Q|Q].
        -- rewrite Q, NG. rewrite EK in Q. apply (append_inj ""%string) in Q. subst x. rewrite C, L. rewrite mget_mset, String.eqb_refl. reflexivity.
        -- rewrite mget_mset. destruct (String.eqb_spec x op) as [Z|Z]; [subst x; congruence|]. reflexivity.
      * intro x. rewrite B. cbn [mget]. destruct (String.eqb_spec x k); [subst x; rewrite E|]; reflexivity.
      * intros c0 v0 Q. destruct (D _ _ Q) as [X|[X Y]]; [now left|]. right. cbn [mget].
        destruct (String.eqb_spec ("<<" +++ c0) k) as [Z|Z]; [rewrite Z in X; congruence|]. now split.
      * match goal with Q : ctl' = None |- _ => exact (proj1 (F Q)) end.
      * intros k0 v0 c0 [Q|I] Y; [|eapply F; eauto]. inversion Q; subst k0 v0. destruct Y as [Z Y]. rewrite EK in Z. apply (append_inj ""%string) in Z. subst c0.
        apply control_lookup in Y. congruence.
      * intros k0 v0 [Q|I] Y; [|eapply G; eauto]. inversion Q; subst k0 v0. destruct Y as [n' [Z [_ [_ Y]]]]. rewrite EK in Z. apply (append_inj ""%string) in Z. subst n'. contradiction.
    + discriminate.
Qed.
Lemma scan_none : forall m ctl o f, scan m ctl o f = None ->
  (exists k v, In (k, v) m /\ unknownKey k) \/
  (exists k v c, In (k, v) m /\ controlKey k c /\ ctl <> None) \/
  (exists m1 m2 k1 v1 c1 k2 v2 c2, m = m1 ++ (k1, v1) :: m2 /\ In (k2, v2) m2 /\ controlKey k1 c1 /\ controlKey k2 c2).
Proof.
  induction m as [|[k v] m IH]; intros ctl o f H; [discriminate|]. cbn [scanControl] in H.
  destruct (key_kinds k) as [E|[[n [E [O C]]]|[[c [CK [E [C L]]]]|[[op [OK [E [C L]]]]|[U [n [E [C L]]]]]]]]; rewrite E in H; try rewrite C in H; try rewrite L in H.
  1,2,4: (destruct (IH _ _ _ H) as [[k0 [v0 [I U]]]|[[k0 [v0 [c0 [I [K N]]]]]|[m1 [m2 [k1 [v1 [c1 [k2 [v2 [c2 [-> R]]]]]]]]]]];
    [left; exists k0, v0; split; [now right|exact U]
    |right; left; exists k0, v0, c0; split; [now right|now split]
    |right; right; exists ((k, v) :: m1), m2, k1, v1, c1, k2, v2, c2; split; [reflexivity|exact R]]).
  - destruct ctl as [x|].
    + right. left. exists k, v, c. repeat split; [now left|apply CK|apply CK|discriminate].
    + destruct (IH _ _ _ H) as [[k0 [v0 [I U]]]|[[k0 [v0 [c0 [I [K N]]]]]|[m1 [m2 [k1 [v1 [c1 [k2 [v2 [c2 [-> R]]]]]]]]]]].
      * left. exists k0, v0. split; [now right|exact U].
      * right. right. exists [], m, k, v, c, k0, v0, c0. auto.
      * right. right. exists ((k, v) :: m1), m2, k1, v1, c1, k2, v2, c2. split; [reflexivity|exact R].
  - left. exists k, v. split; [now left|exact U].
Qed.
End Scan.

(** a map whose control keys are inconsistent *)
Inductive badControls (m : smap node) : Prop :=
| BC_two : forall k1 k2 c1 c2 v1 v2, mget k1 m = Some v1 -> mget k2 m = Some v2 -> k1 <> k2 ->
    controlKey k1 c1 -> controlKey k2 c2 -> badControls m
| BC_unknown : forall k v, mget k m = Some v -> unknownKey k -> badControls m
| BC_orphan : forall k v o, mget k m = Some v -> optionKey k o ->
    (forall k' v' c, mget k' m = Some v' -> ~ controlKey k' c) -> badControls m
| BC_foreign : forall k v o kc vc c, mget k m = Some v -> optionKey k o ->
    mget kc m = Some vc -> controlKey kc c -> ~ optionOf c o -> badControls m.

Lemma replaceValue_val : forall n, replaceValue (val n) n = n.
Proof. now intros []. Qed.

(** C36: a map is rejected iff its control keys are inconsistent: two controls, an
    unknown key, an option without control or an option of another control *)
Theorem C36_rejected : forall n m, val n = VMap m -> msorted m ->
  (getControl true stdReg n [] = CtlErr <-> badControls m).
Proof.
  intros n m E S. pose proof (msorted_NoDup _ S) as N. unfold getControl. rewrite E, app_nil_r.
  assert (IG : forall k v, In (k, v) m -> mget k m = Some v) by (intros; now apply In_mget).
  destruct (scanControl stdReg m None [] []) as [[[ctl o] f]|] eqn:Q.
  - destruct (scan_collect _ _ _ _ _ _ _ N Q) as [A [B [D [F G]]]].
    assert (NB : forall x v, mget x o = Some v -> optionKey ("<<" +++ x) x /\ mget ("<<" +++ x) m = Some v).
    { intros x v X. rewrite A in X. destruct (mget ("<<" +++ x) m) as [w|]; [|discriminate].
      destruct (ctlName x); [|discriminate]. destruct (r_lookup stdReg x) as [[|]|] eqn:L; try discriminate. split; [|congruence].
      split; [reflexivity|]. now apply option_lookup. }
    assert (OP : forall k v x, mget k m = Some v -> optionKey k x -> mget x o = Some v).
    { intros k v x X [-> Y]. rewrite A, X, (option_not_other _ Y). now rewrite (proj1 (option_lookup x) Y). }
    destruct ctl as [[c v]|].
    + destruct (D _ _ eq_refl) as [X|[M C]]; [discriminate|].
      destruct (forallb (fun kv => r_option stdReg c (fst kv)) o) eqn:FA.
      * split; [discriminate|]. intro BC. exfalso.
        destruct BC as [k1 k2 c1 c2 v1 v2 M1 M2 NE K1 K2|k w M1 U|k w x M1 K1 NC|k w x kc vc c' M1 K1 M2 K2 NO].
        -- rewrite (scan_two m [] [] k1 v1 c1 k2 v2 c2) in Q; try discriminate; auto using mget_In.
        -- eapply G; [apply mget_In; exact M1|exact U].
        -- eapply NC; [exact M|]. split; [reflexivity|exact C].
        -- assert (c' = c).
           { destruct K2 as [-> C']. destruct (String.eqb_spec ("<<" +++ c') ("<<" +++ c)) as [Z|Z]; [now apply (append_inj ""%string) in Z|].
             rewrite (scan_two m [] [] _ vc c' _ v c (mget_In _ _ _ M2) (mget_In _ _ _ M) Z) in Q; [discriminate|split; auto|split; auto]. }
           subst c'. apply NO. apply option_check; [exact C|]. rewrite forallb_forall in FA.
           pose proof (OP _ _ _ M1 K1) as X. apply mget_In in X. exact (FA _ X).
      * split; [intros _|reflexivity]. 
        assert (X : exists kv, In kv o /\ r_option stdReg c (fst kv) = false).
        { clear - FA. induction o as [|kv o IH]; [discriminate|]. cbn [forallb] in FA.
          destruct (r_option stdReg c (fst kv)) eqn:R; [|exists kv; split; [now left|exact R]].
          cbn [andb] in FA. destruct (IH FA) as [kv' [I R']]. exists kv'. split; [now right|exact R']. }
        destruct X as [[x w] [I R]]. cbn [fst] in R.
        assert (M1 : exists w', mget x o = Some w').
        { destruct (mget x o) eqn:M1; [eauto|]. apply mget_None in M1. exfalso. apply M1. apply (in_map fst) in I. exact I. }
        destruct M1 as [w' M1]. destruct (NB _ _ M1) as [K M2].
        eapply BC_foreign; [exact M2|exact K|exact M|split; [reflexivity|exact C]|].
        intro OO. apply option_check in OO; [congruence|exact C].
    + destruct (F eq_refl) as [_ NC]. destruct o as [|[x w] o].
      * split; [discriminate|]. intro BC. exfalso.
        destruct BC as [k1 k2 c1 c2 v1 v2 M1 M2 NE K1 K2|k w M1 U|k w x M1 K1 _|k w x kc vc c' M1 K1 M2 K2 NO].
        -- eapply NC; [apply mget_In; exact M1|exact K1].
        -- eapply G; [apply mget_In; exact M1|exact U].
        -- pose proof (OP _ _ _ M1 K1). discriminate.
        -- eapply NC; [apply mget_In; exact M2|exact K2].
      * split; [intros _|reflexivity].
        assert (M1 : mget x ((x, w) :: o) = Some w) by (cbn [mget]; now rewrite String.eqb_refl).
        destruct (NB _ _ M1) as [K M2].
        eapply BC_orphan; [exact M2|exact K|]. intros k' v' c' M' K'. eapply NC; [apply mget_In; exact M'|exact K'].
  - split; [intros _|reflexivity].
    destruct (scan_none _ _ _ _ Q) as [[k [v [I U]]]|[[k [v [c [_ [_ X]]]]]|[m1 [m2 [k1 [v1 [c1 [k2 [v2 [c2 [-> [I [K1 K2]]]]]]]]]]]]].
    + eapply BC_unknown; [apply IG; exact I|exact U].
    + now destruct X.
    + eapply (BC_two _ k1 k2); [apply IG, in_or_app; right; now left|apply IG, in_or_app; right; right; exact I| |exact K1|exact K2].
      intros ->. unfold mkeys in N. rewrite map_app in N. cbn [map fst] in N. apply NoDup_remove_2 in N. apply N.
      apply in_or_app. right. apply in_map_iff. exists (k2, v2). now split.
Qed.

(** C36: otherwise a map with a control key denotes this control, with the control
    options and the regular fields of the map *)
Theorem C36_control : forall n m kc v c, val n = VMap m -> msorted m -> ~ badControls m ->
  mget kc m = Some v -> controlKey kc c ->
  exists o f, getControl true stdReg n [] = CtlOk (mkCtx c v n f o) /\
    (forall x w, mget x o = Some w <-> optionOf c x /\ mget ("<<" +++ x) m = Some w) /\
    (forall x w, mget x f = Some w <-> (forall r, x <> "<<" +++ r)%string /\ mget x m = Some w).
Proof.
  intros n m kc v c E S NB M K. destruct (getControl true stdReg n []) as [| |ctx] eqn:Q.
  - exfalso. unfold getControl in Q. rewrite E, app_nil_r in Q.
    destruct (scanControl stdReg m None [] []) as [[[ctl o] f]|] eqn:X; [|discriminate].
    destruct (scan_collect _ _ _ _ _ _ _ (msorted_NoDup _ S) X) as [A [B [D [F G]]]].
    destruct ctl as [[c' v']|]; [destruct (forallb _ o); discriminate|].
    destruct (F eq_refl) as [_ NC]. eapply NC; [apply mget_In; exact M|exact K].
  - exfalso. apply NB. now apply (C36_rejected n m E S).
  - unfold getControl in Q. rewrite E, app_nil_r in Q.
    destruct (scanControl stdReg m None [] []) as [[[ctl o] f]|] eqn:X; [|discriminate].
    destruct (scan_collect _ _ _ _ _ _ _ (msorted_NoDup _ S) X) as [A [B [D [F G]]]].
    destruct ctl as [[c' v']|].
    2: { exfalso. destruct (F eq_refl) as [_ NC]. eapply NC; [apply mget_In; exact M|exact K]. }
    destruct (forallb (fun kv => r_option stdReg c' (fst kv)) o) eqn:FA; [|discriminate].
    destruct (D _ _ eq_refl) as [Y|[M' C']]; [discriminate|].
    assert (c' = c /\ v' = v) as [-> ->].
    { destruct K as [-> C]. destruct (String.eqb_spec ("<<" +++ c) ("<<" +++ c')) as [Z|Z].
      - apply (append_inj ""%string) in Z. subst. split; [reflexivity|congruence].
      - exfalso. apply NB. eapply BC_two; [exact M|exact M'|exact Z|split; [reflexivity|exact C]|split; [reflexivity|exact C']]. }
    exists o, f. split; [|split].
    + inversion Q. cbn [fold_left]. now rewrite <- E, replaceValue_val.
    + intros x w. split.
      * intro Mx. pose proof Mx as Mi. rewrite A in Mx. destruct (mget ("<<" +++ x) m) as [u|] eqn:Mu; [|discriminate].
        destruct (ctlName x); [|discriminate]. destruct (r_lookup stdReg x) as [[|]|]; try discriminate.
        split; [|exact Mx]. apply option_check; [exact C'|]. rewrite forallb_forall in FA. apply mget_In in Mi. exact (FA _ Mi).
      * intros [O Mx]. rewrite A, Mx, (option_not_other x) by eauto. now rewrite (proj1 (option_lookup x)) by eauto.
    + intros x w. rewrite B, <- ctlKey_none. destruct (ctlKey x); [split; [discriminate|intros [Y _]; discriminate]|].
      destruct (mget x m); split; try discriminate; auto; intros [_ Y]; exact Y.
Qed.

(** C36: a rejected map becomes a failed node, whatever controls it names *)
Theorem C36_rejected_flow : forall ST interpol parse quote show evaluate setTagX fn fuel root m env so et s,
  val root = VMap m -> msorted m -> badControls m ->
  a_replace (ann root) = false -> a_merged (ann root) = false ->
  exists n, Flow.flowF ST interpol true stdReg parse quote show evaluate setTagX fn (S fuel) root env so et s = Ret n s /\
    a_failed (ann n) = true /\ a_error (ann n) = true /\ val n = VMap m.
Proof.
  intros ST interpol parse quote show evaluate setTagX fn fuel root m env so et s E S B R Mg.
  cbn [Flow.flowF]. unfold flowNode. rewrite R, E, Mg. cbn [isExpr negb andb].
  rewrite (proj2 (C36_rejected root m E S) B). eexists. split; [reflexivity|].
  destruct root. cbn in *. repeat split. exact E.
Qed.

(** ** if *)
Inductive ifOption : value -> string -> Prop :=
| IO_true : ifOption (VBool true) "then"
| IO_false : ifOption (VBool false) "else"
| IO_nil : ifOption VNil "else".
(** the node [n] is the result; it is final if it is undefined or resolved *)
Definition chosen (ctrl : bool) (n : node) (r : node * bool) : Prop :=
  fst r = n /\ (snd r = true <-> a_undefined (ann n) = true \/ isResolvedNode ctrl n = true).
Definition undefinedResult (r : node * bool) : Prop := a_undefined (ann (fst r)) = true /\ snd r = true.
Definition failedResult (r : node * bool) : Prop := a_failed (ann (fst r)) = true /\ snd r = false.
Lemma controlValue_chosen : forall ctrl n, chosen ctrl n (controlValue ctrl n).
Proof. intros ctrl n. split; [reflexivity|]. cbn. rewrite Bool.orb_true_iff. tauto. Qed.
Lemma undefResult_undefined : forall env, undefinedResult (undefResult env).
Proof. intro env. split; reflexivity. Qed.
Lemma controlIssue_failed : forall c t, failedResult (controlIssue c t).
Proof. intros c t. split; reflexivity. Qed.

(** C36: when a control selects something: its value, options and fields are there; most
    controls do not accept regular fields *)
Theorem C36_ready : forall ctrl c acc, controlReady ctrl c acc = None <->
  (acc = true \/ cc_fields c = []) /\
  (a_undefined (ann (cc_value c)) = true \/ isResolvedNode ctrl (cc_value c) = true) /\
  isResolvedV ctrl true (VMap (cc_options c)) = true /\ isResolvedV ctrl true (VMap (cc_fields c)) = true.
Proof.
  intros ctrl c acc. unfold controlReady. destruct (negb acc && match cc_fields c with [] => false | _ => true end) eqn:F.
  - split; [discriminate|]. intros [[->|E] _]; [discriminate|]. rewrite E, Bool.andb_false_r in F. discriminate.
  - assert (G : acc = true \/ cc_fields c = []).
    { destruct acc; [now left|]. destruct (cc_fields c); [now right|discriminate]. }
    destruct (a_undefined (ann (cc_value c))), (isResolvedNode ctrl (cc_value c)),
      (isResolvedV ctrl true (VMap (cc_options c))), (isResolvedV ctrl true (VMap (cc_fields c))); cbn; split; intro H; try discriminate; try reflexivity; tauto || (decompose [and or] H; discriminate).
Qed.
(** if and for report regular fields as an error; with all of that but unresolved parts
    the control waits *)
Theorem C36_fields_rejected : forall ctrl c env, cc_fields c <> [] -> failedResult (flowIf ctrl c env).
Proof.
  intros ctrl c env F. unfold flowIf, controlReady. destruct (cc_fields c); [congruence|]. cbn [negb andb fst]. split; reflexivity.
Qed.
Theorem C36_waiting : forall ctrl c env r, cc_fields c = [] -> controlReady ctrl c false = Some r -> flowIf ctrl c env = (cc_node c, false).
Proof.
  intros ctrl c env r F H. unfold flowIf. rewrite H. unfold controlReady in H. rewrite F in H. cbn [negb andb] in H.
  destruct (_ && _)%bool in H; [discriminate|]. now inversion H.
Qed.
(** C36: if *)
Theorem C36_if : forall ctrl c env, controlReady ctrl c false = None ->
  (forall o n, ifOption (val (cc_value c)) o -> mget o (cc_options c) = Some n -> chosen ctrl n (flowIf ctrl c env)) /\
  (forall o, ifOption (val (cc_value c)) o -> mget o (cc_options c) = None -> undefinedResult (flowIf ctrl c env)) /\
  ((forall o, ~ ifOption (val (cc_value c)) o) -> failedResult (flowIf ctrl c env)).
Proof.
  intros ctrl c env R. unfold flowIf. rewrite R. split; [|split].
  - intros o n H M. destruct H; rewrite M; apply controlValue_chosen.
  - intros o H M. destruct H; rewrite M; apply undefResult_undefined.
  - intro H. destruct (val (cc_value c)) as [| [|] | | | | | | | | |] eqn:E; try (apply controlIssue_failed); exfalso; eapply H; constructor.
Qed.
(** C36: the other option has no influence on the selection *)
Theorem C36_if_unchosen : forall ctrl c c' env o, controlReady ctrl c false = None -> controlReady ctrl c' false = None ->
  cc_value c = cc_value c' -> ifOption (val (cc_value c)) o -> mget o (cc_options c) = mget o (cc_options c') ->
  flowIf ctrl c env = flowIf ctrl c' env.
Proof.
  intros ctrl c c' env o R R' E I M. unfold flowIf. rewrite R, R', <- E. destruct I; now rewrite M.
Qed.
(** but all options have to be available before anything is selected *)
Lemma isResolved_map_false : forall ctrl (m : smap node) o n e, mget o m = Some n -> val n = VExpr e ->
  a_failed (ann n) = false -> a_error (ann n) = false -> isResolvedV ctrl true (VMap m) = false.
Proof.
  intros ctrl m o n e M E F1 F2. cbn [isResolvedV]. apply Bool.andb_false_intro2. apply mget_In in M.
  induction m as [|[k x] m IH]; [destruct M|]. destruct M as [Q|Q].
  - inversion Q; subst. destruct n as [v a sr t r]. cbn in E, F1, F2. subst v. cbn [isResolvedN isResolvedV]. now rewrite F1, F2.
  - rewrite (IH Q). apply Bool.andb_false_r.
Qed.
Theorem C36_unchosen_refuted : forall ctrl c env o n e, cc_fields c = [] ->
  mget o (cc_options c) = Some n -> val n = VExpr e -> a_failed (ann n) = false -> a_error (ann n) = false ->
  flowIf ctrl c env = (cc_node c, false).
Proof.
  intros ctrl c env o n e F M E F1 F2. unfold flowIf, controlReady. rewrite F. cbn [negb andb].
  rewrite (isResolved_map_false _ _ _ _ _ M E F1 F2). now rewrite Bool.andb_false_r.
Qed.

(** ** switch and type without cases *)
(** the field or the default for a key *)
Theorem C36_switch : forall ST ctrl evaluate c env s,
  a_undefined (ann (cc_value c)) = false -> mget "cases" (cc_options c) = None -> controlReady ctrl c true = None ->
  exists r, flowSwitch ST ctrl evaluate c env s = Ret r s /\
  (forall k n, val (cc_value c) = VStr k -> mget k (cc_fields c) = Some n -> chosen ctrl n r) /\
  (forall n, val (cc_value c) = VNil \/ (exists k, val (cc_value c) = VStr k /\ mget k (cc_fields c) = None) ->
     mget "default" (cc_options c) = Some n -> chosen ctrl n r) /\
  (val (cc_value c) = VNil \/ (exists k, val (cc_value c) = VStr k /\ mget k (cc_fields c) = None) ->
     mget "default" (cc_options c) = None -> failedResult r) /\
  (val (cc_value c) <> VNil -> (forall k, val (cc_value c) <> VStr k) -> failedResult r).
Proof.
  intros ST ctrl evaluate c env s U C R. eexists. split; [unfold flowSwitch; rewrite U, C, R; reflexivity|].
  unfold selected. split; [|split; [|split]].
  - intros k n E M. rewrite E, M. apply controlValue_chosen.
  - intros n [E|[k [E M]]] D; rewrite E; [|rewrite M]; rewrite D; apply controlValue_chosen.
  - intros [E|[k [E M]]] D; rewrite E; [|rewrite M]; rewrite D; apply controlIssue_failed.
  - intros N1 N2. destruct (val (cc_value c)); try apply controlIssue_failed; [congruence|]. now destruct (N2 s0).
Qed.
Theorem C36_type : forall ctrl c env, controlReady ctrl c true = None ->
  let k := if a_undefined (ann (cc_value c)) then "undef"%string else typeName (val (cc_value c)) in
  (forall n, mget k (cc_fields c) = Some n -> chosen ctrl n (flowType ctrl c env)) /\
  (forall n, mget k (cc_fields c) = None -> mget "default" (cc_options c) = Some n -> chosen ctrl n (flowType ctrl c env)) /\
  (mget k (cc_fields c) = None -> mget "default" (cc_options c) = None -> failedResult (flowType ctrl c env)).
Proof.
  intros ctrl c env R k. unfold flowType, selected, nodeType. rewrite R. fold k. split; [|split].
  - intros n M. rewrite M. apply controlValue_chosen.
  - intros n M D. rewrite M, D. apply controlValue_chosen.
  - intros M D. rewrite M, D. apply controlIssue_failed.
Qed.

(** ** switch with cases *)
Section Cases.
Variable ST : Type.
Variable ctrl : bool.
Variable evaluate : expr -> binding -> bool -> ST -> res ST (value * info * bool).
Variable c : cctx.
Variable env : binding.
(** the test of a match field: a lambda applied to the value; a lambda that cannot
    be evaluated does not match *)
Inductive matchTest : node -> ST -> bool -> ST -> Prop :=
| MT_bool : forall n lm s b i s', lamOf (val n) = Some lm ->
    lambdaEval ST evaluate lm false false false [] [val (cc_value c)] env false s = Ret (true, (VBool b, i, true)) s' ->
    matchTest n s b s'
| MT_fail : forall n lm s x v i s', lamOf (val n) = Some lm ->
    lambdaEval ST evaluate lm false false false [] [val (cc_value c)] env false s = Ret (x, (v, i, false)) s' ->
    matchTest n s false s'
(* what is no lambda matches everything *)
| MT_other : forall n s, lamOf (val n) = None -> matchTest n s true s.
(** a case with the fields [m] holds or not: all its tests must hold *)
Definition caseTest (m : smap node) : bool :=
  match mget "case" m with Some n => equivN n (cc_value c) | None => true end.
Inductive caseHolds (m : smap node) : ST -> bool -> ST -> Prop :=
| CH_case : forall s, mget "match" m = None -> mget "case" m <> None -> caseHolds m s (caseTest m) s
| CH_match : forall n s b s', mget "match" m = Some n -> matchTest n s b s' -> caseHolds m s (caseTest m && b) s'.
Definition wellFormed (m : smap node) : Prop := msorted m /\ Forall (fun kv => In (fst kv) ["case"; "match"; "value"]%string) m.

Lemma caseFields_run : forall m, NoDup (mkeys m) -> Forall (fun kv => In (fst kv) ["case"; "match"; "value"]%string) m ->
  forall f r v s,
  (mget "match" m = None ->
   caseFields ST evaluate c env m f r v s =
   Ret (CaseOk (f || match mget "case" m with Some _ => true | None => false end) (r || negb (caseTest m))
               (match mget "value" m with Some n => Some n | None => v end)) s) /\
  (forall n b s', mget "match" m = Some n -> matchTest n s b s' ->
   caseFields ST evaluate c env m f r v s =
   Ret (CaseOk true (r || negb (caseTest m && b)) (match mget "value" m with Some n => Some n | None => v end)) s').
Proof.
  induction m as [|[k x] m IH]; intros N F f r v s.
  - split; [intros _; cbn; now rewrite !Bool.orb_false_r|discriminate].
  - cbn [mkeys map fst] in N. inversion N as [|? ? N1 N2]; subst. inversion F as [|? ? F1 F2]; subst. cbn [fst In] in F1.
    assert (NG : mget k m = None) by (now apply mget_None). specialize (IH N2 F2).
    cbn [caseFields]. unfold caseTest. cbn [mget].
    decompose [or] F1; try subst k; try contradiction.
    + change (String.eqb "case" "case") with true. change (String.eqb "match" "case") with false. change (String.eqb "value" "case") with false. cbv beta iota.
      destruct (IH true (r || negb (equivN x (cc_value c))) v s) as [A B]. unfold caseTest in *. rewrite NG in A, B. split.
      * intro M. rewrite (A M). f_equal. f_equal; [now rewrite !Bool.orb_true_r|]. cbn. now rewrite Bool.orb_false_r.
      * intros n b s' M T. rewrite (B _ _ _ M T). now destruct r, (equivN x (cc_value c)), b.
    + change (String.eqb "match" "case") with false. change (String.eqb "case" "match") with false.
      change (String.eqb "match" "match") with true. change (String.eqb "value" "match") with false. cbv beta iota. split; [discriminate|].
      intros n b s' Q T. inversion Q; subst x. inversion T as [? lm ? ? i ? L E|? lm ? y w i ? L E|? ? L]; subst; rewrite L.
      * unfold bind. rewrite E. cbn [negb]. destruct (IH true (r || negb b) v s') as [A _]. rewrite (A NG). unfold caseTest. f_equal. f_equal.
        rewrite <- Bool.orb_assoc. f_equal. rewrite Bool.negb_andb. apply Bool.orb_comm.
      * unfold bind. rewrite E. cbn [negb]. destruct (IH true true v s') as [A _]. rewrite (A NG). rewrite Bool.andb_false_r. cbn [negb orb]. now rewrite Bool.orb_true_r.
      * destruct (IH true r v s') as [A _]. rewrite (A NG). unfold caseTest. now rewrite Bool.andb_true_r.
    + change (String.eqb "value" "case") with false. change (String.eqb "case" "value") with false.
      change (String.eqb "value" "match") with false. change (String.eqb "match" "value") with false. change (String.eqb "value" "value") with true. cbv beta iota.
      destruct (IH f r (Some x) s) as [A B]. unfold caseTest in *. rewrite NG in A, B. split; [exact A|exact B].
Qed.
Lemma caseHolds_run : forall m s b s', wellFormed m -> caseHolds m s b s' ->
  caseFields ST evaluate c env m false false None s = Ret (CaseOk true (negb b) (mget "value" m)) s'.
Proof.
  intros m s b s' [S W] H. destruct (caseFields_run m (msorted_NoDup _ S) W false false None s) as [A B].
  destruct H as [s M C|n s b s' M T].
  - rewrite (A M). destruct (mget "case" m); [|congruence]. now destruct (mget "value" m).
  - rewrite (B _ _ _ M T). now destruct (mget "value" m).
Qed.
(** the cases before the first one that holds *)
Inductive noneHolds : list node -> ST -> ST -> Prop :=
| NH_nil : forall s, noneHolds [] s s
| NH_cons : forall n m l s s1 s2, val n = VMap m -> wellFormed m -> caseHolds m s false s1 -> noneHolds l s1 s2 ->
    noneHolds (n :: l) s s2.
Lemma noneHolds_skip : forall l s s', noneHolds l s s' -> forall r,
  switchCases ST ctrl evaluate c env (l ++ r) s = switchCases ST ctrl evaluate c env r s'.
Proof.
  induction 1 as [s|n m l s s1 s2 E W H N IH]; intro r; [reflexivity|]. cbn [app switchCases]. rewrite E.
  unfold bind. rewrite (caseHolds_run _ _ _ _ W H). cbn [negb]. apply IH.
Qed.

(** C36: switch takes the first case that holds, and the default if none holds *)
Theorem C36_cases : forall cs l s, a_undefined (ann (cc_value c)) = false -> controlReady ctrl c false = None ->
  mget "cases" (cc_options c) = Some cs -> val cs = VList l ->
  (forall pre n m post s1 s2, l = pre ++ n :: post -> val n = VMap m -> wellFormed m ->
     noneHolds pre s s1 -> caseHolds m s1 true s2 ->
     exists r, flowSwitch ST ctrl evaluate c env s = Ret r s2 /\
       match mget "value" m with Some v => chosen ctrl v r | None => undefinedResult r end) /\
  (forall s1, noneHolds l s s1 ->
     exists r, flowSwitch ST ctrl evaluate c env s = Ret r s1 /\
       match mget "default" (cc_options c) with Some v => chosen ctrl v r | None => failedResult r end).
Proof.
  intros cs l s U R C E. unfold flowSwitch. rewrite U, C, R, E. split.
  - intros pre n m post s1 s2 -> En W N H. rewrite (noneHolds_skip _ _ _ N). cbn [switchCases]. rewrite En. unfold bind.
    rewrite (caseHolds_run _ _ _ _ W H). cbn [negb]. eexists. split; [reflexivity|].
    destruct (mget "value" m); [apply controlValue_chosen|apply undefResult_undefined].
  - intros s1 N. pose proof (noneHolds_skip _ _ _ N []) as Q. rewrite app_nil_r in Q. rewrite Q. cbn [switchCases].
    eexists. split; [reflexivity|]. destruct (mget "default" (cc_options c)); [apply controlValue_chosen|apply controlIssue_failed].
Qed.
(** an undefined value makes the whole switch undefined *)
Theorem C36_switch_undefined : forall s, a_undefined (ann (cc_value c)) = true ->
  exists r, flowSwitch ST ctrl evaluate c env s = Ret r s /\ undefinedResult r.
Proof. intros s U. unfold flowSwitch. rewrite U. eexists. split; [reflexivity|apply undefResult_undefined]. Qed.
End Cases.

(** a match field that is no lambda matches every value, e.g. a string *)
Theorem C36_match_refuted : forall ST ctrl evaluate c env cs n m post v x s,
  a_undefined (ann (cc_value c)) = false -> controlReady ctrl c false = None ->
  mget "cases" (cc_options c) = Some cs -> val cs = VList (n :: post) ->
  val n = VMap m -> m = [("match", x); ("value", v)] -> lamOf (val x) = None ->
  exists r, flowSwitch ST ctrl evaluate c env s = Ret r s /\ chosen ctrl v r.
Proof.
  intros ST ctrl evaluate c env cs n m post v x s U R C E En Em L. subst m.
  destruct (C36_cases ST ctrl evaluate c env cs (n :: post) s U R C E) as [A _].
  destruct (A [] n _ post s s eq_refl En) as [r [Q X]].
  - split.
    { constructor; [intros k' [<- | []]; reflexivity|]. constructor; [intros k' []|constructor]. }
    constructor; [right; now left|]. constructor; [right; right; now left|constructor].
  - constructor.
  - replace true with (caseTest c [("match"%string, x); ("value"%string, v)] && true) by reflexivity.
    eapply CH_match; [reflexivity|]. now constructor.
  - exists r. split; [exact Q|exact X].
Qed.

(** ** merge *)
(** the value of a field: the last map that has it, the regular fields come first *)
Fixpoint lastField (x : string) (l : list (smap node)) : option node :=
  match l with
  | [] => None
  | m :: r => match lastField x r with Some v => Some v | None => mget x m end
  end.
Lemma putAll_get : forall m acc x, msorted m ->
  mget x (putAll m acc) = match mget x m with Some v => Some v | None => mget x acc end.
Proof.
  intros m acc x S. apply msorted_NoDup in S. revert acc. induction m as [|[k v] m IH]; intro acc; [reflexivity|].
  cbn [mkeys map fst] in S. inversion S as [|? ? N1 N2]; subst. unfold putAll in *. cbn [fold_left fst snd mget]. rewrite (IH N2).
  rewrite mget_mset. destruct (String.eqb_spec x k).
  - subst. now rewrite (proj2 (mget_None k m) N1).
  - reflexivity.
Qed.
Inductive mapsOf : list node -> list (smap node) -> Prop :=
| MO_nil : mapsOf [] []
| MO_skip : forall n l ms, val n = VNil -> mapsOf l ms -> mapsOf (n :: l) ms
| MO_map : forall n m l ms, val n = VMap m -> msorted m -> mapsOf l ms -> mapsOf (n :: l) (m :: ms).
Lemma putEach_get : forall l ms, mapsOf l ms -> forall acc, exists m, putEach l acc = Some m /\
  forall x, mget x m = match lastField x ms with Some v => Some v | None => mget x acc end.
Proof.
  induction 1 as [|n l ms E M IH|n m l ms E S M IH]; intro acc; cbn [putEach].
  - exists acc. split; reflexivity.
  - rewrite E. apply IH.
  - rewrite E. destruct (IH (putAll m acc)) as [r [Q G]]. exists r. split; [exact Q|]. intro x. rewrite G. cbn [lastField].
    destruct (lastField x ms); [reflexivity|]. now rewrite putAll_get.
Qed.
Lemma putEach_none : forall l, (exists n, In n l /\ val n <> VNil /\ forall m, val n <> VMap m) -> forall acc, putEach l acc = None.
Proof.
  induction l as [|n l IH]; intros [x [I [N1 N2]]] acc; [destruct I|]. cbn [putEach]. destruct I as [->|I].
  - destruct (val x); try reflexivity; [congruence|]. now destruct (N2 m).
  - assert (X : exists n, In n l /\ val n <> VNil /\ forall m, val n <> VMap m) by eauto.
    destruct (val n); try reflexivity; now apply IH.
Qed.
Lemma filter_get : forall (m : smap node) x, NoDup (mkeys m) ->
  mget x (filter (fun kv => negb (a_undefined (ann (snd kv)))) m) =
  match mget x m with Some n => if a_undefined (ann n) then None else Some n | None => None end.
Proof.
  induction m as [|[k v] m IH]; intros x N; [reflexivity|]. cbn [mkeys map fst] in N. inversion N as [|? ? N1 N2]; subst.
  cbn [filter snd mget]. destruct (a_undefined (ann v)) eqn:U; cbn [negb mget].
  - rewrite IH by exact N2. destruct (String.eqb_spec x k); [|reflexivity]. subst. rewrite (proj2 (mget_None k m) N1). now rewrite U.
  - destruct (String.eqb_spec x k); [now rewrite U|]. now apply IH.
Qed.
(** C36: merge yields the defined regular fields, overwritten by the fields of the
    map or the maps of the list, a later map overwriting an earlier one *)
Theorem C36_merge : forall ctrl c env, controlReady ctrl c true = None -> msorted (cc_fields c) ->
  let own x := match mget x (cc_fields c) with Some n => if a_undefined (ann n) then None else Some n | None => None end in
  let result ms := exists m, fst (flowMergeC ctrl c env) = dnode (VMap m) (b_source env) /\ snd (flowMergeC ctrl c env) = true /\
       forall x, mget x m = match lastField x ms with Some v => Some v | None => own x end in
  (val (cc_value c) = VNil -> result []) /\
  (forall m, val (cc_value c) = VMap m -> msorted m -> result [m]) /\
  (forall l ms, val (cc_value c) = VList l -> mapsOf l ms -> result ms) /\
  (forall l n, val (cc_value c) = VList l -> In n l -> val n <> VNil -> (forall m, val n <> VMap m) -> failedResult (flowMergeC ctrl c env)).
Proof.
  intros ctrl c env R S own result. unfold result, flowMergeC. rewrite R.
  pose proof (filter_get (cc_fields c)) as FG. pose proof (msorted_NoDup _ S) as N.
  split; [|split; [|split]].
  - intro E. rewrite E. eexists. repeat split. intro x. cbn [lastField]. rewrite FG by exact N. reflexivity.
  - intros m E Sm. rewrite E. eexists. repeat split. intro x. cbn [lastField]. rewrite putAll_get by exact Sm.
    destruct (mget x m); [reflexivity|]. rewrite FG by exact N. reflexivity.
  - intros l ms E M. rewrite E. destruct (putEach_get _ _ M (filter (fun kv => negb (a_undefined (ann (snd kv)))) (cc_fields c))) as [r [Q G]].
    rewrite Q. exists r. repeat split. intro x. rewrite G. destruct (lastField x ms); [reflexivity|]. rewrite FG by exact N. reflexivity.
  - intros l n E I N1 N2. rewrite E, putEach_none by eauto. apply controlIssue_failed.
Qed.

(** ** Examples: whole documents *)
Open Scope string_scope.
Definition ref1 (x : string) := ERef "" [x].
Definition tableC (s : string) : option expr :=
  let s := trimSpace s in
  if String.eqb s "x y" then Some (EConcat (ref1 "x") (ref1 "y"))
  else if String.eqb s "c" then Some (ref1 "c")
  else None.
Definition showC (e : expr) := match e with EConcat _ _ => "x y" | _ => "" end.
Definition lst (l : list value) : value := VList (map nd l).
Definition specFor : value := VMap [("x", nd (lst [VStr "a"; VStr "b"])); ("y", nd (lst [VStr "1"; VStr "2"; VStr "3"]))].
Definition docFor : node := nd (VMap [("out", nd (VMap [("<<do", nd (VStr "(( x y ))")); ("<<for", nd specFor)]))]).
Definition docEmpty : node := nd (VMap [("out", nd (VMap [("<<do", nd (VStr "(( x y ))")); ("<<for", nd (VMap [("x", nd (lst [])); ("y", nd (lst [VStr "1"]))]))]))]).
Definition docIf (c : value) : node := nd (VMap [("c", nd c);
  ("out", nd (VMap [("<<else", nd (VStr "no")); ("<<if", nd (VStr "(( c ))")); ("<<then", nd (VStr "yes"))]))]).
Definition docTwo : node := nd (VMap [("out", nd (VMap [("<<if", nd (VBool true)); ("<<switch", nd (VStr "k"))]))]).
Definition runC (d : node) := flowF _ (worldS tableC showC) 12 d (newEnvironment [] "template") true st0.
Definition outV (r : res (nat -> value) node) : option value :=
  match r with
  | Ret n _ => match find false true ["out"] n with FOk x => Some (val x) | _ => None end
  | _ => None
  end.
Definition texts (v : option value) : list value := match v with Some (VList l) => map val l | Some v => [v] | None => [] end.
Example for_document : texts (outV (runC docFor)) = [VStr "a1"; VStr "a2"; VStr "a3"; VStr "b1"; VStr "b2"; VStr "b3"].
Proof. vm_compute. reflexivity. Qed.
Example for_empty_document : runC docEmpty = Panic.
Proof. vm_compute. reflexivity. Qed.
Example if_document : texts (outV (runC (docIf (VBool true)))) = [VStr "yes"] /\ texts (outV (runC (docIf (VBool false)))) = [VStr "no"].
Proof. split; vm_compute; reflexivity. Qed.
Example two_document : exists n s x, runC docTwo = Ret n s /\ find false true ["out"] n = FOk x /\ a_failed (ann x) = true.
Proof. do 3 eexists. split; [vm_compute; reflexivity|]. split; vm_compute; reflexivity. Qed.

(** the hypotheses of the theorems are met *)
Definition bodyT : value := VTemplate [] (nd (VStr "(( x y ))")) (nd (VStr "(( x y ))")) (env0 []).
Definition ctxFor : cctx := mkCtx "for" (nd specFor) (nd VNil) [] [("do", nd bodyT)].
Definition itX : iteration := mkIter "x" "index-x" [(VInt 0, nd (VStr "a")); (VInt 1, nd (VStr "b"))].
Definition itY : iteration := mkIter "y" "index-y" [(VInt 0, nd (VStr "1")); (VInt 1, nd (VStr "2")); (VInt 2, nd (VStr "3"))].
Example for_ready : forControl true ctxFor (nd bodyT) [itX; itY].
Proof. split; try reflexivity. repeat constructor; discriminate. Qed.
Example for_runs : exists os s, runAll _ (evalF _ (worldS tableC showC) 8) bodyT (scopes (env0 []) [itX; itY]) st0 os s /\
  somes os = [VStr "a1"; VStr "a2"; VStr "a3"; VStr "b1"; VStr "b2"; VStr "b3"].
Proof.
  do 2 eexists. split.
  - do 6 (eapply RA_cons; [vm_compute; reflexivity|reflexivity|]). apply RA_nil.
  - vm_compute. reflexivity.
Qed.
Example for_names : Forall2 mapVar [("x", nd (lst [VStr "a"; VStr "b"])); ("y", nd (lst [VStr "1"; VStr "2"; VStr "3"]))] [itX; itY].
Proof.
  constructor; [|constructor; [|constructor]].
  - split; [apply (RO_list (map nd [VStr "a"; VStr "b"]))|]. split; [exists "x"%char; split; [now left|reflexivity]|]. left. exists "x". repeat split.
  - split; [apply (RO_list (map nd [VStr "1"; VStr "2"; VStr "3"]))|]. split; [exists "y"%char; split; [now left|reflexivity]|]. left. exists "y". repeat split.
Qed.
(** an undefined map key does not drop a constant body: it is stored under the key "" *)
Definition ctxKey : cctx := mkCtx "for" (nd (VMap [("x", nd (lst [VStr "a"]))])) (nd VNil) []
  [("do", nd (VInt 1)); ("mapkey", nd (VTemplate [] (nd (VStr "(( c ))")) (nd (VStr "(( c ))")) (env0 [])))].
Theorem C35_skip_refuted : exists n m s, flowFor _ true (evalF _ (worldS tableC showC) 8) ctxKey (env0 [("c", nd VNil)]) st0 = Ret (n, true) s /\
  val n = VMap m /\ mget "" m = Some (nd (VInt 1)).
Proof. do 3 eexists. split; [vm_compute; reflexivity|]. split; vm_compute; reflexivity. Qed.
Definition ctxSwitch (v : string) : cctx := mkCtx "switch" (nd (VStr v)) (nd VNil) []
  [("cases", nd (lst [VMap [("case", nd (VStr "k")); ("value", nd (VInt 1))]; VMap [("case", nd (VStr "l")); ("value", nd (VInt 2))]]));
   ("default", nd (VInt 3))].
Example switch_cases : forall v, In v [("k", 1%Z); ("l", 2%Z); ("z", 3%Z)] ->
  exists r, flowSwitch _ true (evalF _ (worldS tableC showC) 8) (ctxSwitch (fst v)) (env0 []) st0 = Ret r st0 /\ val (fst r) = VInt (snd v) /\ snd r = true.
Proof. intros v [<- |[<- |[<- |[]]]]; eexists; (split; [reflexivity|split; reflexivity]). Qed.
Example switch_ready : controlReady true (ctxSwitch "l") false = None.
Proof. reflexivity. Qed.

Print Assumptions C36_rejected.
Print Assumptions C36_control.
Print Assumptions C36_rejected_flow.
Print Assumptions C36_if.
Print Assumptions C36_if_unchosen.
Print Assumptions C36_unchosen_refuted.
Print Assumptions C36_switch.
Print Assumptions C36_type.
Print Assumptions C36_cases.
Print Assumptions C36_switch_undefined.
Print Assumptions C36_match_refuted.
Print Assumptions C36_merge.
Print Assumptions C35_skip_refuted.

Print Assumptions C36_ready.
Print Assumptions C36_fields_rejected.
Print Assumptions C36_waiting.
