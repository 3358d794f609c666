(** C40 feature settings, C32 contexts are persistent values, C31 access modes of
    derived contexts. *)
From Verif Require Import Core CoreFacts Str StrFacts Interp PropFix Context.
From Coq Require Import Lia.
Import ListNotations.

(** * C40: features *)

(** ** Specification: what a setting says about a feature *)

(** [Set s b] asks for the feature [name] to be on (v = true) or off (v = false):
    by its name or by its no-form *)
Definition says (s : string) (b : bool) (name : string) (v : bool) : Prop :=
  (s = name /\ v = b) \/ (s = ("no" +++ name)%string /\ v = negb b).
Definition feature (name : string) : Prop := name = "interpolation" \/ name = "control".
(** the last of a sequence of settings that says something about [name] says [v] *)
Definition lastSays (l : list (string * bool)) (name : string) (v : bool) : Prop :=
  exists l1 s b l2, l = l1 ++ (s, b) :: l2 /\ says s b name v
    /\ forall s' b' v', In (s', b') l2 -> ~ says s' b' name v'.

Lemma known_feature n : knownFeature n = true <-> feature n.
Proof.
  unfold knownFeature, feature, INTERPOLATION, CONTROL.
  rewrite Bool.orb_true_iff, !String.eqb_eq. tauto.
Qed.

Lemma featSet_says f s b f' : featSet f s b = (f', true) ->
  exists name v, feature name /\ says s b name v /\ f' = (if v then mset name tt f else mdel name f)
    /\ forall name' v', feature name' -> says s b name' v' -> name' = name /\ v' = v.
Proof.
  unfold featSet. destruct (hasPrefix s "no") eqn:P.
  - destruct (knownFeature (sdrop 2 s)) eqn:K; [|discriminate]. intro H.
    assert (E : s = ("no" +++ sdrop 2 s)%string).
    { apply hasPrefix_spec in P. destruct P as [r ->].
      replace (sdrop 2 ("no" +++ r)) with r; auto.
      symmetry. exact (sdrop_app "no" r). }
    apply known_feature in K.
    exists (sdrop 2 s), (negb b). split; [exact K|]. split; [right; auto|].
    split; [inversion H; destruct b; reflexivity|].
    intros n v F [[-> ->]|[S ->]].
    + destruct F as [F|F]; rewrite F in P; discriminate P.
    + rewrite S. split; auto. symmetry. exact (sdrop_app "no" n).
  - destruct (knownFeature s) eqn:K; [|discriminate]. intro H. apply known_feature in K.
    exists s, b. split; [exact K|]. split; [left; auto|].
    split; [inversion H; destruct b; reflexivity|].
    intros n v F [[-> ->]|[S ->]]; auto.
    rewrite S in P. exfalso.
    assert (hasPrefix ("no" +++ n) "no" = true) by (apply hasPrefix_spec; eexists; reflexivity). congruence.
Qed.

(** setting a feature switches it on, setting its no-form switches it off (and the
    other way round for an explicit false), and no other feature changes *)
Theorem C40_set f s b name v : feature name -> says s b name v ->
  exists f', featSet f s b = (f', true)
    /\ enabled f' name = v
    /\ forall other, other <> name -> enabled f' other = enabled f other.
Proof.
  intros F S.
  assert (K : exists f', featSet f s b = (f', true)).
  { unfold featSet. destruct S as [[-> ->]|[-> ->]].
    - destruct (hasPrefix name "no") eqn:P.
      + destruct F as [->| ->]; discriminate P.
      + apply known_feature in F. rewrite F. eauto.
    - replace (hasPrefix ("no" +++ name) "no") with true
        by (symmetry; apply hasPrefix_spec; eexists; reflexivity).
      replace (sdrop 2 ("no" +++ name)) with name by (symmetry; exact (sdrop_app "no" name)).
      apply known_feature in F. rewrite F. eauto. }
  destruct K as [f' K]. exists f'. split; auto.
  destruct (featSet_says _ _ _ _ K) as (n & w & Fn & _ & E & U).
  destruct (U _ _ F S) as [-> ->]. unfold enabled. rewrite E. destruct w.
  - split; [now rewrite mget_mset_same|]. intros o N. now rewrite mget_mset_other.
  - split; [now rewrite mget_mdel, String.eqb_refl|]. intros o N.
    rewrite mget_mdel. destruct (String.eqb_spec o n); congruence.
Qed.

(** anything else is rejected and changes nothing *)
Theorem C40_unknown f s b : (forall name v, feature name -> ~ says s b name v) ->
  featSet f s b = (f, false).
Proof.
  intro N. destruct (featSet f s b) as [f' ok] eqn:E. destruct ok.
  - destruct (featSet_says _ _ _ _ E) as (n & w & F & S & _). elim (N n w F S).
  - unfold featSet in E. destruct (knownFeature _); congruence.
Qed.
Theorem C40_rejected_names f b : featSet f "nonsense" b = (f, false) /\ featSet f "" b = (f, false)
  /\ featSet f "nonointerpolation" b = (f, false).
Proof. repeat split. Qed.

Definition setAll (f : feats) (l : list (string * bool)) : feats :=
  fold_left (fun f x => fst (featSet f (fst x) (snd x))) l f.

Lemma setAll_app f a b : setAll f (a ++ b) = setAll (setAll f a) b.
Proof. apply fold_left_app. Qed.

Lemma says_dec s b name : feature name -> (exists v, says s b name v) \/ forall v, ~ says s b name v.
Proof.
  intro F. destruct (String.eqb_spec s name) as [->|N1].
  { left. exists b. left; auto. }
  destruct (String.eqb_spec s ("no" +++ name)) as [->|N2].
  { left. exists (negb b). right; auto. }
  right. intros v [[]|[]]; congruence.
Qed.

Lemma set_silent f s b name : feature name -> (forall v, ~ says s b name v) ->
  enabled (fst (featSet f s b)) name = enabled f name.
Proof.
  intros F N. destruct (featSet f s b) as [f' ok] eqn:E. cbn [fst]. destruct ok.
  - destruct (featSet_says _ _ _ _ E) as (n & w & Fn & S & -> & _).
    assert (name <> n) by (intros ->; elim (N _ S)).
    unfold enabled. destruct w; [now rewrite mget_mset_other|].
    rewrite mget_mdel. destruct (String.eqb_spec name n); congruence.
  - unfold featSet in E. destruct (knownFeature _); congruence.
Qed.

(** for every sequence of settings the last one that concerns a feature decides;
    without one the feature keeps its state *)
Theorem C40_last_wins f l name : feature name ->
  (forall v, lastSays l name v -> enabled (setAll f l) name = v)
  /\ ((forall s b v, In (s, b) l -> ~ says s b name v) -> enabled (setAll f l) name = enabled f name).
Proof.
  intro F. split.
  - intros v (l1 & s & b & l2 & -> & S & N). rewrite setAll_app. cbn [setAll fold_left fst snd].
    destruct (C40_set (setAll f l1) s b name v F S) as (f' & E & V & _). rewrite E. cbn [fst].
    fold (setAll f' l2). clear - F V N. revert f' V.
    induction l2 as [|[s' b'] l2 IH]; intros f' V; auto.
    cbn [setAll fold_left fst snd]. apply IH.
    + intros; apply N; now right.
    + rewrite set_silent; auto. intros v'. apply N. now left.
  - revert f. induction l as [|[s b] l IH]; intros f N; auto. cbn [setAll fold_left fst snd].
    fold (setAll (fst (featSet f s b)) l). rewrite IH.
    + apply set_silent; auto. intros v. apply N. now left.
    + intros. apply N. now right.
Qed.

(** only the two features can ever be switched on *)
Theorem C40_only_features l name : enabled (setAll [] l) name = true -> feature name.
Proof.
  assert (H : forall f, (forall n, enabled f n = true -> feature n) ->
              forall n, enabled (setAll f l) n = true -> feature n).
  { induction l as [|[s b] l IH]; intros f P; auto. cbn [setAll fold_left fst snd]. apply IH.
    intros n. destruct (featSet f s b) as [f' ok] eqn:E. cbn [fst]. destruct ok.
    - destruct (featSet_says _ _ _ _ E) as (m & w & Fm & S & -> & _). unfold enabled.
      destruct w; [rewrite mget_mset|rewrite mget_mdel];
        destruct (String.eqb_spec n m) as [->|]; auto; try discriminate; apply P.
    - unfold featSet in E. destruct (knownFeature _); inversion E; subst; apply P. }
  apply H. intros n. discriminate.
Qed.

(** the variable SPIFF_FEATURES is such a sequence *)
Theorem C40_environment text :
  featuresOf text = setAll [] (map (fun s => (trimSpace s, true)) (split text ",")).
Proof.
  unfold featuresOf, setAll. generalize (@nil (string * unit)).
  induction (split text ",") as [|s l IH]; intro f; auto. cbn. apply IH.
Qed.

Example C40_example :
  enabled (featuresOf " interpolation, foo,control ,nocontrol") "interpolation" = true
  /\ enabled (featuresOf " interpolation, foo,control ,nocontrol") "control" = false.
Proof. split; reflexivity. Qed.
Example C40_example_last : lastSays [("control", true); ("nocontrol", true); ("interpolation", true)] "control" false.
Proof.
  exists [("control", true)], "nocontrol", true, [("interpolation", true)]. split; auto. split; [right; auto|].
  intros s b v [[= <- <-]|[]] [[E _]|[E _]]; discriminate E.
Qed.

(** * Contexts *)
Section Contexts.
Context {Raw Vals Fns Ctls Tag : Type}.
Variable sanitize : Raw -> option Vals.
Local Notation op := (op Raw Fns Ctls Tag).
Local Notation heap := (heap Vals Fns Ctls Tag).
Local Notation ctx := (ctx Vals Fns Ctls Tag).
Local Notation step := (step sanitize).
Local Notation run := (run sanitize).

(** ** Observations *)

(** what a context shows: its settings, the features and tags it refers to, and
    the state kept by PrepareStubs or ApplyStubs *)
Definition view (h : heap) (i : nat) : option (ctx * feats * smap Tag) :=
  match nth_error (ctxs h) i with
  | Some c => Some (c, getF h (c_feats c), getT h (c_tags c))
  | None => None
  end.

(** the context a call is made on *)
Definition receiver (o : op) : option nat :=
  match o with
  | ONew _ _ | OPlain => None
  | OReset c | OResetStream c _ | OInterpolation c _ | OControl c _
  | OFeatures c _ | OKey c _ | OMode c _ | OFS c _
  | OFunctions c _ | OControls c _ | OValues c _ | OSetTag c _ _
  | OCleanupTags c | OCascade c | OPrepare c _ | OApply c _ => Some c
  end.
(** With... calls that do not concern features *)
Definition plainWith (o : op) : bool :=
  match o with
  | OKey _ _ | OMode _ _ | OFS _ _ | OFunctions _ _
  | OControls _ _ | OValues _ _ => true
  | _ => false
  end.
(** calls that set features *)
Definition featureWith (o : op) : bool :=
  match o with OInterpolation _ _ | OControl _ _ | OFeatures _ _ => true | _ => false end.
(** calls that return a new context derived from their receiver *)
Definition deriving (o : op) : bool :=
  plainWith o || featureWith o || match o with OSetTag _ _ _ => true | _ => false end.
(** the setting a plain With... call makes *)
Definition changed (o : op) (c : ctx) : ctx -> Prop := fun d =>
  c_tags d = c_tags c /\ c_feats d = c_feats c /\ c_bind d = None
  /\ match o with
     | OKey _ k => c_key d = k
     | _ => c_key d = c_key c
     end
  /\ match o with
     | OFS _ f => c_fs d = f
     | _ => c_fs d = c_fs c
     end
  /\ match o with
     | OValues _ None => c_values d = None
     | OValues _ (Some r) => c_values d = sanitize r
     | _ => c_values d = c_values c
     end
  /\ match o with
     | OFunctions _ f => r_fns (c_reg d) = f
     | _ => r_fns (c_reg d) = r_fns (c_reg c)
     end
  /\ match o with
     | OControls _ f => r_ctls (c_reg d) = f
     | _ => r_ctls (c_reg d) = r_ctls (c_reg c)
     end
  /\ match o with
     | OMode _ m =>
         N.testbit (c_mode d) 0 = N.testbit m 0
         /\ N.testbit (c_mode d) 1 = N.testbit m 1 && match c_fs c with Some (VFS _) => false | _ => true end
     | OFS _ f =>
         N.testbit (c_mode d) 0 = N.testbit (c_mode c) 0
         /\ N.testbit (c_mode d) 1 = N.testbit (c_mode c) 1 && match f with Some (VFS _) => false | _ => true end
     | _ => c_mode d = c_mode c
     end.

(** ** Invariants of reachable heaps *)
Definition binv (c : ctx) : Prop := forall b, c_bind c = Some b ->
  s_mode b = maskFor (c_fs c) (c_mode c)
  /\ s_feats b = c_feats c
  /\ s_fs b = match c_fs c with Some f => f | None => OSFS end
  /\ s_key b = c_key c /\ s_reg b = c_reg c
  /\ s_values b = c_values c.
Definition cinv (h : heap) (c : ctx) : Prop :=
  (c_feats c < length (fmaps h))%nat
  /\ (forall r, c_tags c = Some r -> (r < length (tmaps h))%nat)
  /\ binv c.
Definition hinv (h : heap) : Prop := forall i c, nth_error (ctxs h) i = Some c -> cinv h c.

Lemma upd_length {A} i (x : A) l : length (upd i x l) = length l.
Proof.
  unfold upd. destruct (Nat.ltb_spec i (length l)); auto.
  rewrite app_length, firstn_length. cbn [length]. rewrite skipn_length. lia.
Qed.
Lemma upd_nth {A} i (x : A) l j :
  nth_error (upd i x l) j = if ((i =? j) && (i <? length l))%nat then Some x else nth_error l j.
Proof.
  unfold upd. destruct (Nat.ltb_spec i (length l)) as [L|L]; [|now rewrite Bool.andb_false_r].
  rewrite Bool.andb_true_r. destruct (Nat.eqb_spec i j) as [->|N].
  - rewrite nth_error_app2; rewrite firstn_length; [|lia].
    replace (j - Nat.min j (length l))%nat with 0%nat by lia. reflexivity.
  - destruct (Nat.lt_ge_cases j i).
    + rewrite nth_error_app1; [|rewrite firstn_length; lia].
      rewrite <- (firstn_skipn i l) at 2. rewrite nth_error_app1; auto. rewrite firstn_length; lia.
    + rewrite nth_error_app2; rewrite firstn_length; [|lia].
      replace (j - Nat.min i (length l))%nat with (S (j - S i)) by lia. cbn [nth_error].
      rewrite <- (firstn_skipn (S i) l) at 2. rewrite nth_error_app2; rewrite firstn_length; [|lia].
      f_equal. lia.
Qed.
Lemma upd_nth_def {A} i (x d : A) l j :
  nth j (upd i x l) d = if ((i =? j) && (i <? length l))%nat then x else nth j l d.
Proof.
  pose proof (upd_nth i x l j) as H.
  destruct (nth_error (upd i x l) j) eqn:E.
  - rewrite (nth_error_nth _ _ d E). destruct (_ && _)%bool; [congruence|].
    symmetry in H. now rewrite (nth_error_nth _ _ d H).
  - destruct (_ && _)%bool; [congruence|].
    apply nth_error_None in E. rewrite upd_length in E. rewrite !nth_overflow; auto.
    now rewrite upd_length.
Qed.

Lemma setF_fold c l (h : heap) :
  let h' := fold_left (fun h f => setF c f true h) l h in
  length (fmaps h') = length (fmaps h) /\ tmaps h' = tmaps h
  /\ ctxs h' = ctxs h
  /\ (forall j, j <> c_feats c -> getF h' j = getF h j)
  /\ ((c_feats c < length (fmaps h))%nat ->
      getF h' (c_feats c) = setAll (getF h (c_feats c)) (map (fun s => (s, true)) l)).
Proof.
  revert h. induction l as [|s l IH]; intro h; cbn [fold_left map setAll fst snd].
  - repeat split; auto.
  - destruct (IH (setF c s true h)) as (A & B & C & D & E).
    cbv zeta. rewrite A, B, C. cbn [setF putF fmaps tmaps ctxs]. rewrite upd_length. repeat split; auto.
    + intros j N. rewrite D; auto. unfold getF. cbn [setF putF fmaps]. rewrite upd_nth_def.
      destruct (Nat.eqb_spec (c_feats c) j); [congruence|reflexivity].
    + intro L. rewrite E; [|cbn [setF putF fmaps]; now rewrite upd_length].
      unfold getF at 1. cbn [setF putF fmaps]. rewrite upd_nth_def, Nat.eqb_refl.
      replace (c_feats c <? length (fmaps h))%nat with true by (symmetry; apply Nat.ltb_lt; auto).
      reflexivity.
Qed.
Lemma setF_one c s b (h : heap) :
  let h' := setF c s b h in
  length (fmaps h') = length (fmaps h) /\ tmaps h' = tmaps h
  /\ ctxs h' = ctxs h
  /\ (forall j, j <> c_feats c -> getF h' j = getF h j)
  /\ ((c_feats c < length (fmaps h))%nat ->
      getF h' (c_feats c) = setAll (getF h (c_feats c)) [(s, b)]).
Proof.
  cbv zeta. cbn [setF putF fmaps tmaps ctxs]. rewrite upd_length. repeat split; auto.
  - intros j N. unfold getF. cbn [setF putF fmaps]. rewrite upd_nth_def.
    destruct (Nat.eqb_spec (c_feats c) j); [congruence|reflexivity].
  - intro L. unfold getF at 1. cbn [setF putF fmaps]. rewrite upd_nth_def, Nat.eqb_refl.
    replace (c_feats c <? length (fmaps h))%nat with true by (symmetry; apply Nat.ltb_lt; auto).
    reflexivity.
Qed.

(** the settings of features a call makes *)
Definition fsets (o : op) : list (string * bool) :=
  match o with
  | OInterpolation _ b => [("interpolation", b)]
  | OControl _ b => [("control", b)]
  | OFeatures _ l => map (fun s => (s, true)) l
  | _ => []
  end.

(** the effect of a call on the heap, case by case *)
Inductive effect (h : heap) (o : op) : heap -> Prop :=
| E_none : (forall i c, receiver o = Some i -> nth_error (ctxs h) i = Some c -> fsets o = []) -> receiver o <> None -> effect h o h
| E_root : forall f k, receiver o = None ->
    (o = OPlain /\ f = [] \/ exists fs, o = ONew fs k /\ f = featuresOf fs) ->
    effect h o (addCtx (mkCtx k MODE_DEFAULT None None (defaultRegistry) None (length (fmaps h)) None)
                 (addF f h))
| E_in_place : forall i c c', receiver o = Some i -> deriving o = false -> nth_error (ctxs h) i = Some c ->
    c_key c' = c_key c -> c_mode c' = c_mode c -> c_fs c' = c_fs c ->
    c_values c' = c_values c -> c_reg c' = c_reg c -> c_tags c' = c_tags c ->
    c_feats c' = c_feats c -> (binv c -> binv c') ->
    effect h o (putCtx i c' h)
| E_cleanup : forall i c, o = OCleanupTags i -> nth_error (ctxs h) i = Some c ->
    effect h o (putCtx i (setTags (Some (length (tmaps h))) (reset c)) (addT [] h))
| E_with : forall i c c', receiver o = Some i -> plainWith o = true -> nth_error (ctxs h) i = Some c ->
    changed o c c' -> effect h o (addCtx c' h)
| E_feature : forall i c h', receiver o = Some i -> featureWith o = true -> nth_error (ctxs h) i = Some c ->
    length (fmaps h') = length (fmaps h) -> tmaps h' = tmaps h -> ctxs h' = ctxs h ->
    (forall j, j <> c_feats c -> getF h' j = getF h j) ->
    ((c_feats c < length (fmaps h))%nat ->
       getF h' (c_feats c) = setAll (getF h (c_feats c)) (fsets o)) ->
    effect h o (addCtx (reset c) h')
| E_settag : forall i n t c r, o = OSetTag i n t -> nth_error (ctxs h) i = Some c -> c_tags c = Some r ->
    effect h o (addCtx (reset c) (putT r (mset n t (getT h (Some r))) h)).

Lemma binv_reset c : binv (reset c).
Proof. intros b E. discriminate E. Qed.
Lemma mask_bit0 f m : N.testbit (maskFor f m) 0 = N.testbit m 0.
Proof.
  unfold maskFor, dropOS. destruct f as [[|k]|]; auto. cbn [isOS]. rewrite N.ldiff_spec.
  now rewrite Bool.andb_true_r.
Qed.
Lemma mask_bit1 f m :
  N.testbit (maskFor f m) 1 = N.testbit m 1 && match f with Some (VFS _) => false | _ => true end.
Proof.
  unfold maskFor, dropOS. destruct f as [[|k]|]; cbn [isOS]; rewrite ?Bool.andb_true_r; auto.
  now rewrite N.ldiff_spec.
Qed.

Lemma step_effect h o : effect h o (fst (step h o)).
Proof.
  destruct o; unfold Context.step;
    try (match goal with |- context [nth_error (ctxs h) ?i] => destruct (nth_error (ctxs h) i) eqn:E end;
         [|apply E_none; [intros; cbn in *; congruence|discriminate]]).
  - cbn [fst]. apply E_root; auto. right. eauto.
  - cbn [fst]. apply E_root; auto.
  - cbn [fst]. apply (E_in_place h _ c c0); auto. intros _. apply binv_reset.
  - destruct (c_bind c0) eqn:B; cbn [fst]; [|apply E_none; [reflexivity|discriminate]].
    apply (E_in_place h _ c c0); auto. intros I b0 [= <-]. destruct (I _ B) as (? & ? & ? & ? & ? & ?).
    cbn. repeat split; auto.
  - pose proof (setF_one c0 INTERPOLATION b h) as (A & B & C & D & F). unfold derive. cbn [fst].
    apply (E_feature h _ c c0); auto.
  - pose proof (setF_one c0 CONTROL b h) as (A & B & C & D & F). unfold derive. cbn [fst].
    apply (E_feature h _ c c0); auto.
  - pose proof (setF_fold c0 l h) as (A & B & C & D & F). unfold derive. cbn [fst].
    apply (E_feature h _ c c0); auto.
  - apply (E_with h _ c c0); auto. repeat split.
  - apply (E_with h _ c c0); auto. repeat split; [apply mask_bit0|apply mask_bit1].
  - apply (E_with h _ c c0); auto. repeat split; [apply mask_bit0|apply mask_bit1].
  - apply (E_with h _ c c0); auto. repeat split.
  - apply (E_with h _ c c0); auto. repeat split.
  - destruct v as [r|].
    + destruct (sanitize r) eqn:S; [|apply E_none; [reflexivity|discriminate]].
      apply (E_with h _ c c0); auto. repeat split; symmetry; exact S.
    + apply (E_with h _ c c0); auto. repeat split.
  - destruct (c_tags c0) eqn:T; [|apply E_none; [reflexivity|discriminate]].
    unfold derive; cbn [fst]. eapply E_settag; eauto.
  - cbn [fst]. eapply E_cleanup; eauto.
  - cbn [fst]. apply (E_in_place h _ c c0); auto. intros _. apply binv_reset.
  - cbn [fst]. apply (E_in_place h _ c c0); auto. intros _ b [= <-]. cbn. repeat split; auto.
  - cbn [fst]. apply (E_in_place h _ c c0); auto. intros I b [= <-]. cbn. unfold bindingOf.
    destruct (c_bind c0) as [b|] eqn:B; [destruct (I _ B) as (? & ? & ? & ? & ? & ?)|]; cbn; repeat split; auto.
Qed.

Lemma nth_error_snoc {A} (l : list A) x i y : nth_error (l ++ [x]) i = Some y ->
  nth_error l i = Some y \/ (i = length l /\ y = x).
Proof.
  intro H. destruct (Nat.lt_ge_cases i (length l)).
  - left. now rewrite nth_error_app1 in H.
  - right. rewrite nth_error_app2 in H; auto. destruct (i - length l)%nat eqn:E; cbn in H.
    + inversion H. split; auto. lia.
    + destruct n; discriminate H.
Qed.
Lemma nth_error_snoc_l {A} (l : list A) x i y : nth_error l i = Some y -> nth_error (l ++ [x]) i = Some y.
Proof. intro H. rewrite nth_error_app1; auto. apply nth_error_Some. congruence. Qed.

Lemma effect_inv h o h' : effect h o h' -> hinv h -> hinv h'.
Proof.
  intros E I j d H. destruct E as
    [|f k R|i c c' R D N e1 e2 e3 e4 e5 e6 e7 B|i c O N|i c c' R P N C|i c h' R P N L T X O S|i n t c r O N T];
    cbn [ctxs addCtx addF putCtx addT putT] in H.
  - now apply (I j).
  - apply nth_error_snoc in H. destruct H as [H|[_ ->]].
    + destruct (I _ _ H) as (A1 & A2 & A3). split; [|split]; auto. cbn. rewrite app_length. lia.
    + split; [|split]; cbn; [rewrite app_length; cbn; lia|discriminate|intros b X; discriminate X].
  - rewrite upd_nth in H. destruct (_ && _)%bool.
    + inversion H; subst d. destruct (I _ _ N) as (A1 & A2 & A3). split; [|split]; cbn; auto.
      * congruence.
      * intros r. rewrite e6. apply A2.
    + destruct (I _ _ H) as (A1 & A2 & A3). split; [|split]; auto.
  - rewrite upd_nth in H. destruct (_ && _)%bool.
    + inversion H; subst d. destruct (I _ _ N) as (A1 & A2 & A3). split; [|split]; cbn; auto.
      * intros r [= <-]. rewrite app_length. cbn. lia.
      * intros b X. discriminate X.
    + destruct (I _ _ H) as (A1 & A2 & A3). split; [|split]; auto. cbn. intros r X.
      rewrite app_length. specialize (A2 _ X). lia.
  - apply nth_error_snoc in H. destruct H as [H|[_ ->]].
    + destruct (I _ _ H) as (A1 & A2 & A3). split; [|split]; auto.
    + destruct (I _ _ N) as (A1 & A2 & A3). destruct C as (C1 & C2 & C3 & _).
      split; [|split]; cbn; [congruence| |].
      * intros r. rewrite C1. apply A2.
      * intros b X. congruence.
  - rewrite X in H. apply nth_error_snoc in H. destruct H as [H|[_ ->]].
    + destruct (I _ _ H) as (A1 & A2 & A3). split; [|split]; cbn; auto; [congruence|]. rewrite T. auto.
    + destruct (I _ _ N) as (A1 & A2 & A3). split; [|split]; cbn; [congruence| |apply binv_reset].
      rewrite T. auto.
  - apply nth_error_snoc in H. destruct H as [H|[_ ->]].
    + destruct (I _ _ H) as (A1 & A2 & A3). split; [|split]; cbn; auto. intros r' X.
      rewrite upd_length. auto.
    + destruct (I _ _ N) as (A1 & A2 & A3). split; [|split]; cbn; auto; [|apply binv_reset].
      intros r' X. rewrite upd_length. auto.
Qed.

Lemma run_app (t1 t2 : list op) (h : heap) : run (t1 ++ t2) h = run t2 (run t1 h).
Proof. apply fold_left_app. Qed.
Lemma run_snoc (t : list op) (o : op) (h : heap) : run (t ++ [o]) h = fst (step (run t h) o).
Proof. rewrite run_app. reflexivity. Qed.
Lemma run_inv (t : list op) : hinv (run t start).
Proof.
  induction t as [|o t IH] using rev_ind.
  - intros i c H. destruct i; discriminate H.
  - rewrite run_snoc. eapply effect_inv; eauto using step_effect.
Qed.

(** * C32: contexts are persistent values *)

(** no With... call other than the ones that set features or tags changes any
    existing context: not the receiver, not any other one *)
Theorem C32_persistent t o i : plainWith o = true -> (i < length (ctxs (run t start)))%nat ->
  view (run (t ++ [o]) start) i = view (run t start) i.
Proof.
  intros P L. rewrite run_snoc. unfold view.
  pose proof (step_effect (run t start) o) as E.
  destruct E as [|f k R|? c c' R D N|? c O N|j c c' R P' N C|? c h' R P' N|? n t' c r O N T];
    try (subst o; discriminate P); auto.
  - destruct o; discriminate.
  - unfold deriving in D. rewrite P in D. discriminate D.
  - cbn [ctxs addCtx]. rewrite nth_error_app1; auto.
  - destruct o; discriminate.
Qed.
(** and therefore no history of such calls does *)
Theorem C32_history t t' i : forallb plainWith t' = true -> (i < length (ctxs (run t start)))%nat ->
  view (run (t ++ t') start) i = view (run t start) i.
Proof.
  revert t. induction t' as [|o t' IH]; intros t P L.
  - now rewrite app_nil_r.
  - cbn [forallb] in P. apply andb_prop in P. destruct P as [P Q].
    replace (t ++ o :: t') with ((t ++ [o]) ++ t') by now rewrite <- app_assoc.
    pose proof (C32_persistent t o i P L) as V.
    rewrite IH; auto.
    destruct (nth_error (ctxs (run t start)) i) eqn:E; [|apply nth_error_None in E; lia].
    unfold view in V. rewrite E in V.
    destruct (nth_error (ctxs (run (t ++ [o]) start)) i) eqn:E'; [|discriminate V].
    apply nth_error_Some. congruence.
Qed.

(** the result of such a call is a new context that differs from its receiver in
    the setting made (and the access bits of the mode), starts without a state
    kept from earlier processing, and shows the same features and tags *)
Theorem C32_result t o i j : plainWith o = true -> receiver o = Some i ->
  snd (step (run t start) o) = RCtx j ->
  j = length (ctxs (run t start))
  /\ exists c d, nth_error (ctxs (run t start)) i = Some c
     /\ nth_error (ctxs (run (t ++ [o]) start)) j = Some d /\ changed o c d
     /\ (forall v w, view (run t start) i = Some v -> view (run (t ++ [o]) start) j = Some w ->
          snd (fst v) = snd (fst w) /\ snd v = snd w).
Proof.
  intros P R J. rewrite run_snoc.
  set (h := run t start) in *.
  assert (X : j = length (ctxs h) /\ exists c d, nth_error (ctxs h) i = Some c /\ changed o c d
              /\ fst (step h o) = addCtx d h).
  { destruct o; try discriminate P; injection R as ->; unfold Context.step in *;
      destruct (nth_error (ctxs h) i) as [c|] eqn:E; try discriminate J;
      try (cbn in J; injection J as <-; split; auto; eexists; eexists; split; eauto; split; [|reflexivity];
           repeat split; first [apply mask_bit0|apply mask_bit1]).
    destruct v as [r|].
    - destruct (sanitize r) eqn:S; [|discriminate J].
      cbn in J; injection J as <-; split; auto; eexists; eexists; split; eauto; split; [|reflexivity].
      repeat split. symmetry. exact S.
    - cbn in J; injection J as <-; split; auto; eexists; eexists; split; eauto; split; [|reflexivity].
      repeat split. }
  destruct X as (-> & c & d & E & C & ->). split; auto. exists c, d. split; auto.
  assert (D : nth_error (ctxs (addCtx d h)) (length (ctxs h)) = Some d)
    by (cbn; rewrite nth_error_app2, Nat.sub_diag; auto).
  split; auto. split; auto. unfold view. rewrite E, D. intros v w [= <-] [= <-].
  destruct C as (C1 & C2 & _). cbn [fst snd]. rewrite C1, C2. split; reflexivity.
Qed.

(** a call that processes documents with one context (or drops its state) leaves
    every other context alone *)
Theorem C32_processing t o i j : deriving o = false -> receiver o = Some i -> j <> i ->
  view (run (t ++ [o]) start) j = view (run t start) j.
Proof.
  intros D R N. rewrite run_snoc. unfold view.
  pose proof (step_effect (run t start) o) as E. pose proof (run_inv t) as I.
  destruct E as [|f k R'|i' c c' R' D' N'|i' c O N'|i' c c' R' P' N' C|i' c h' R' P' N'|i' n t' c r O N' T];
    auto; try congruence.
  - assert (i' = i) by congruence. subst i'. cbn [putCtx ctxs]. rewrite upd_nth.
    destruct (Nat.eqb_spec i j); [congruence|]. reflexivity.
  - subst o. injection R as ->. cbn [putCtx addT ctxs]. rewrite upd_nth.
    destruct (Nat.eqb_spec i j); [congruence|]. cbn [andb].
    destruct (nth_error (ctxs (run t start)) j) as [d|] eqn:Ed; auto.
    destruct (I _ _ Ed) as (_ & B & _). do 2 f_equal. unfold getT.
    destruct (c_tags d) eqn:Td; auto. cbn [tmaps putCtx addT]. rewrite app_nth1; auto.
  - unfold deriving in D. rewrite P' in D. discriminate D.
  - unfold deriving in D. rewrite P' in D. destruct (plainWith o); discriminate D.
  - subst o. discriminate D.
Qed.

(** ** Calls that set features *)

(** [rooted t i k]: the context [i] descends from the one created by the call of
    New or Plain at position [k] of the history *)
Inductive rooted : list op -> nat -> nat -> Prop :=
| rooted_new : forall t o, receiver o = None -> rooted (t ++ [o]) (length (ctxs (run t start))) (length t)
| rooted_with : forall t o i k j, rooted t i k -> receiver o = Some i -> deriving o = true ->
    snd (step (run t start) o) = RCtx j -> rooted (t ++ [o]) j k
| rooted_later : forall t o i k, rooted t i k -> rooted (t ++ [o]) i k.

(** the feature settings made on contexts descending from the call at position k,
    in the order of the calls *)
Inductive settings : list op -> nat -> list (string * bool) -> Prop :=
| st_plain : forall t, settings (t ++ [OPlain]) (length t) []
| st_new : forall t fs key,
    settings (t ++ [ONew fs key]) (length t) (map (fun s => (trimSpace s, true)) (split fs ","))
| st_set : forall t o i k l, settings t k l -> receiver o = Some i -> rooted t i k ->
    settings (t ++ [o]) k (l ++ fsets o)
| st_other : forall t o k l, settings t k l ->
    (forall i, receiver o = Some i -> ~ rooted t i k) -> settings (t ++ [o]) k l.

Definition isRoot (o : op) : bool := match receiver o with None => true | _ => false end.
Definition fidx (t : list op) (k : nat) : nat := length (filter isRoot (firstn k t)).

Lemma fidx_snoc t o k : (k <= length t)%nat -> fidx (t ++ [o]) k = fidx t k.
Proof.
  intro L. unfold fidx. rewrite firstn_app. replace (k - length t)%nat with 0%nat by lia.
  now rewrite firstn_O, app_nil_r.
Qed.
Lemma fmaps_length (t : list op) : length (fmaps (run t start)) = fidx t (length t).
Proof.
  unfold fidx. rewrite firstn_all. induction t as [|o t IH] using rev_ind; auto.
  rewrite run_snoc, filter_app, app_length. cbn [filter].
  pose proof (step_effect (run t start) o) as E.
  destruct E as [F R|f k R|i c c' R D N|i c O N|i c c' R P N C|i c h' R P N L T X O S|i n t' c r O N T];
    cbn [fmaps addCtx addF putCtx addT putT];
    replace (isRoot o) with (match receiver o with None => true | _ => false end) by reflexivity.
  - destruct (receiver o); [|congruence]. cbn. lia.
  - rewrite R, app_length. cbn. lia.
  - rewrite R. cbn. lia.
  - subst o. cbn. lia.
  - rewrite R. cbn. lia.
  - rewrite R. cbn. lia.
  - subst o. cbn. lia.
Qed.
Lemma firstn_le_split {A} (l : list A) j k : (j <= k)%nat -> firstn k l = firstn j l ++ firstn (k - j) (skipn j l).
Proof.
  revert l k. induction j as [|j IH]; intros [|x l] [|k] H; cbn; auto; try lia.
  - now rewrite firstn_nil.
  - f_equal. apply IH. lia.
Qed.
Lemma fidx_lt t j k o : nth_error t j = Some o -> receiver o = None -> (j < k)%nat -> (fidx t j < fidx t k)%nat.
Proof.
  intros H R L. unfold fidx. rewrite (firstn_le_split t j k) by lia. rewrite filter_app, app_length.
  destruct (skipn j t) as [|x r] eqn:E.
  - assert (j < length t)%nat by (apply nth_error_Some; congruence).
    pose proof (skipn_length j t) as X. rewrite E in X. cbn in X. lia.
  - assert (x = o).
    { rewrite <- (firstn_skipn j t) in H. rewrite nth_error_app2 in H by (rewrite firstn_length; lia).
      rewrite firstn_length in H.
      assert (j < length t)%nat by (pose proof (skipn_length j t) as X; rewrite E in X; cbn in X; lia).
      replace (j - Nat.min j (length t))%nat with 0%nat in H by lia. rewrite E in H. cbn in H. congruence. }
    subst x. destruct (k - j)%nat eqn:D; [lia|]. cbn [firstn filter]. replace (isRoot o) with true by (unfold isRoot; rewrite R; reflexivity). cbn. lia.
Qed.
Lemma fidx_inj t j k o p : nth_error t j = Some o -> receiver o = None ->
  nth_error t k = Some p -> receiver p = None -> fidx t j = fidx t k -> j = k.
Proof.
  intros H R H' R' E. destruct (Nat.lt_trichotomy j k) as [L|[L|L]]; auto.
  - pose proof (fidx_lt t j k o H R L). lia.
  - pose proof (fidx_lt t k j p H' R' L). lia.
Qed.

(** contexts never disappear and keep their feature map *)
Lemma ctx_stays (t : list op) (o : op) (i : nat) (c : ctx) : nth_error (ctxs (run t start)) i = Some c ->
  exists d, nth_error (ctxs (run (t ++ [o]) start)) i = Some d /\ c_feats d = c_feats c
            /\ c_mode d = c_mode c /\ c_fs d = c_fs c.
Proof.
  intro H. rewrite run_snoc. pose proof (step_effect (run t start) o) as E.
  destruct E as [F R|f k R|j c0 c' R D N e1 e2 e3 e4 e5 e6 e7|j c0 O N|j c0 c' R P N C|j c0 h' R P N L T X O S|j n t' c0 r O N T];
    cbn [ctxs addCtx addF putCtx addT putT]; rewrite ?X;
    try (exists c; split; [first [exact H|apply nth_error_snoc_l; exact H]|repeat split]; fail).
  - rewrite upd_nth. destruct (Nat.eqb_spec j i) as [->|]; cbn [andb]; [|eauto].
    assert (c0 = c) by congruence. subst c0. destruct (i <? _)%nat; eauto.
  - rewrite upd_nth. destruct (Nat.eqb_spec j i) as [->|]; cbn [andb]; [|eauto].
    assert (c0 = c) by congruence. subst c0. destruct (i <? _)%nat; eauto.
Qed.
(** what a deriving call returns *)
Lemma derived (h : heap) (o : op) i j : receiver o = Some i -> deriving o = true -> snd (step h o) = RCtx j ->
  exists c d, nth_error (ctxs h) i = Some c /\ nth_error (ctxs (fst (step h o))) j = Some d
    /\ c_feats d = c_feats c /\ j = length (ctxs h)
    /\ c_fs d = match o with OFS _ f => f | _ => c_fs c end
    /\ c_mode d = match o with OFS _ f => maskFor f (c_mode c) | OMode _ m => maskFor (c_fs c) m | _ => c_mode c end.
Proof.
  intros R D J.
  assert (X : exists c, nth_error (ctxs h) i = Some c).
  { destruct (nth_error (ctxs h) i) as [c|] eqn:E; eauto.
    destruct o; try discriminate D; injection R as ->; unfold Context.step in J; rewrite E in J; discriminate J. }
  destruct X as [c E].
  assert (Y : exists d h', fst (step h o) = addCtx d h' /\ ctxs h' = ctxs h
     /\ c_feats d = c_feats c /\ j = length (ctxs h)
     /\ c_fs d = match o with OFS _ f => f | _ => c_fs c end
     /\ c_mode d = match o with OFS _ f => maskFor f (c_mode c) | OMode _ m => maskFor (c_fs c) m | _ => c_mode c end).
  { destruct o; try discriminate D; injection R as ->; unfold Context.step in *; rewrite E in *;
      try (cbn in J; injection J as <-; eexists; eexists; split; [reflexivity|]; repeat split; fail).
    - cbn in J. injection J as <-. pose proof (setF_fold c l h) as (_ & _ & X & _).
      eexists; eexists; split; [reflexivity|]. cbv zeta in X. repeat split; auto. now rewrite X.
    - destruct v as [r|].
      + destruct (sanitize r); [|discriminate J]. cbn in J; injection J as <-; eexists; eexists; split; [reflexivity|]; repeat split.
      + cbn in J; injection J as <-; eexists; eexists; split; [reflexivity|]; repeat split.
    - destruct (c_tags c); [|discriminate J].
      cbn in J; injection J as <-; eexists; eexists; split; [reflexivity|]; repeat split. }
  destruct Y as (d & h' & -> & C & F & -> & A & B). exists c, d. split; auto.
  split; [|repeat split; auto]. cbn [addCtx ctxs]. rewrite C, nth_error_app2, Nat.sub_diag; auto.
Qed.
Lemma root_ctx (h : heap) (o : op) : receiver o = None ->
  exists d, nth_error (ctxs (fst (step h o))) (length (ctxs h)) = Some d /\ c_feats d = length (fmaps h)
    /\ c_fs d = None /\ c_mode d = MODE_DEFAULT /\ snd (step h o) = RCtx (length (ctxs h)).
Proof.
  destruct o; try discriminate; intros _; unfold Context.step; cbn [fst snd addCtx addF ctxs];
    (eexists; split; [rewrite nth_error_app2, Nat.sub_diag; auto; reflexivity|repeat split]).
Qed.

Lemma rooted_spec t i k : rooted t i k ->
  (exists o, nth_error t k = Some o /\ receiver o = None)
  /\ exists c, nth_error (ctxs (run t start)) i = Some c /\ c_feats c = fidx t k.
Proof.
  induction 1 as [t o R|t o i k j H IH R D J|t o i k H IH].
  - split.
    + exists o. split; auto. rewrite nth_error_app2, Nat.sub_diag; auto.
    + rewrite run_snoc. destruct (root_ctx (run t start) o R) as (d & E & F & _).
      exists d. split; auto. rewrite F, fmaps_length. symmetry. apply fidx_snoc. lia.
  - destruct IH as [(p & P & Q) (c & C & F)].
    assert (k < length t)%nat by (apply nth_error_Some; congruence). split.
    + exists p. split; auto. now apply nth_error_snoc_l.
    + rewrite run_snoc. destruct (derived _ _ _ _ R D J) as (c' & d & C' & E & F' & _).
      exists d. split; auto. rewrite fidx_snoc by lia. congruence.
  - destruct IH as [(p & P & Q) (c & C & F)].
    assert (k < length t)%nat by (apply nth_error_Some; congruence). split.
    + exists p. split; auto. now apply nth_error_snoc_l.
    + destruct (ctx_stays t o i c C) as (d & E & F' & _). exists d. split; auto.
      rewrite fidx_snoc by lia. congruence.
Qed.
(** every context has a root *)
Lemma rooted_exists t i (c : ctx) : nth_error (ctxs (run t start)) i = Some c -> exists k, rooted t i k.
Proof.
  revert i c. induction t as [|o t IH] using rev_ind; intros i c H.
  - destruct i; discriminate H.
  - destruct (Nat.lt_ge_cases i (length (ctxs (run t start)))) as [L|L].
    + destruct (nth_error (ctxs (run t start)) i) as [c'|] eqn:E; [|apply nth_error_None in E; lia].
      destruct (IH _ _ E) as [k K]. exists k. now apply rooted_later.
    + rewrite run_snoc in H.
      assert (X : (i < length (ctxs (fst (step (run t start) o))))%nat) by (apply nth_error_Some; congruence).
      destruct (receiver o) as [j|] eqn:R.
      * destruct (nth_error (ctxs (run t start)) j) as [c'|] eqn:E.
        -- destruct (IH _ _ E) as [k K]. exists k.
           assert (Y : deriving o = true /\ snd (step (run t start) o) = RCtx i).
           { destruct o; try discriminate R; injection R as ->; unfold Context.step in *; rewrite E in *;
               try (cbn in X |- *; rewrite ?upd_length in X; exfalso; lia);
               try (cbn in X |- *; rewrite app_length in X; cbn in X; split; [reflexivity|f_equal; lia]).
             - destruct (c_bind c'); cbn in X; rewrite ?upd_length in X; exfalso; lia.
             - unfold derive in *. cbn [fst snd addCtx ctxs] in *.
               pose proof (setF_fold c' l (run t start)) as (_ & _ & Z & _). cbv zeta in Z. rewrite Z in *.
               rewrite app_length in X. cbn in X. split; [reflexivity|f_equal; lia].
             - destruct v as [r|]; [destruct (sanitize r)|]; cbn in X |- *;
                 try rewrite app_length in X; cbn in X; try (exfalso; lia); split; try reflexivity; f_equal; lia.
             - destruct (c_tags c'); cbn in X |- *; try rewrite app_length in X; cbn in X; try (exfalso; lia);
                 split; try reflexivity; f_equal; lia. }
           destruct Y as [D J]. eapply rooted_with; eauto.
        -- exfalso. destruct o; try discriminate R; injection R as ->; unfold Context.step in X; rewrite E in X;
             cbn [fst] in X; lia.
      * exists (length t). replace i with (length (ctxs (run t start))); [now apply rooted_new|].
        destruct o; try discriminate R; cbn in X; rewrite app_length in X; cbn in X; lia.
Qed.
Lemma rooted_unique t i k k' : rooted t i k -> rooted t i k' -> k = k'.
Proof.
  intros H H'. destruct (rooted_spec _ _ _ H) as [(o & O & R) (c & C & F)].
  destruct (rooted_spec _ _ _ H') as [(o' & O' & R') (c' & C' & F')].
  eapply fidx_inj; eauto. congruence.
Qed.

Lemma settings_spec t k l : settings t k l ->
  (exists o, nth_error t k = Some o /\ receiver o = None)
  /\ getF (run t start) (fidx t k) = setAll [] l.
Proof.
  assert (NEW : forall t f k' o, o = ONew f k' \/ o = OPlain /\ f = "" ->
     getF (run (t ++ [o]) start) (fidx (t ++ [o]) (length t)) = featuresOf f).
  { intros t' f k' o H. rewrite run_snoc, fidx_snoc, <- fmaps_length by lia. unfold getF.
    destruct H as [->|[-> ->]]; unfold Context.step; cbn [fst fmaps addCtx addF];
      rewrite app_nth2, Nat.sub_diag; auto. }
  induction 1 as [t|t fs key|t o i k l H IH R RT|t o k l H IH N].
  - split.
    + exists OPlain. split; auto. rewrite nth_error_app2, Nat.sub_diag; auto.
    + rewrite (NEW t "" "" OPlain); auto.
  - split.
    + exists (ONew fs key). split; auto. rewrite nth_error_app2, Nat.sub_diag; auto.
    + rewrite (NEW t fs key); auto. apply C40_environment.
  - destruct IH as [(p & P & Q) G]. assert (k < length t)%nat by (apply nth_error_Some; congruence).
    split; [exists p; split; auto; now apply nth_error_snoc_l|].
    rewrite run_snoc, fidx_snoc, setAll_app, <- G by lia.
    destruct (rooted_spec _ _ _ RT) as [_ (c & C & F)]. pose proof (run_inv t _ _ C) as (B & _).
    pose proof (step_effect (run t start) o) as E.
    destruct E as [E0 E1|f k' R'|i' c0 c' R' D N|i' c0 O N|i' c0 c' R' P' N C'|i' c0 h' R' P' N L T X O S|i' n t' c0 r O N T].
    + rewrite (E0 i c); auto.
    + congruence.
    + replace (fsets o) with (@nil (string * bool)); auto. destruct o; auto; discriminate D.
    + subst o. reflexivity.
    + replace (fsets o) with (@nil (string * bool)); auto. destruct o; auto; discriminate P'.
    + assert (i' = i) by congruence. subst i'. assert (c0 = c) by congruence. subst c0.
      rewrite <- F. apply S. exact B.
    + subst o. reflexivity.
  - destruct IH as [(p & P & Q) G]. assert (k < length t)%nat by (apply nth_error_Some; congruence).
    split; [exists p; split; auto; now apply nth_error_snoc_l|].
    rewrite run_snoc, fidx_snoc, <- G by lia.
    pose proof (step_effect (run t start) o) as E.
    destruct E as [E0 E1|f k' R'|i' c0 c' R' D N'|i' c0 O N'|i' c0 c' R' P' N' C'|i' c0 h' R' P' N' L T X O S|i' n t' c0 r O N' T]; auto.
    + unfold getF. cbn [fmaps addCtx addF]. rewrite app_nth1; auto. rewrite fmaps_length.
      eapply fidx_lt; eauto.
    + change (getF h' (fidx t k) = getF (run t start) (fidx t k)). apply O.
      destruct (rooted_exists _ _ _ N') as [k' K']. intro Y. apply (N i' R').
      destruct (rooted_spec _ _ _ K') as [(o' & O' & R'') (c & C & F)].
      replace k with k'; auto. eapply fidx_inj; eauto. congruence.
Qed.

Lemma processing_feats (t : list op) i (b : bstate Vals Fns Ctls Tag) : processing (run t start) i b ->
  exists c : ctx, nth_error (ctxs (run t start)) i = Some c /\ s_feats b = c_feats c.
Proof.
  intros (c & C & [->| ->]); exists c; split; auto. unfold bindingOf.
  destruct (c_bind c) as [b|] eqn:B; auto.
  destruct (run_inv t _ _ C) as (_ & _ & I). destruct (I _ B) as (_ & X & _). exact X.
Qed.

(** for every history: a document processed with a context sees a feature exactly
    as the last setting made on any context of the same origin says, initially
    what SPIFF_FEATURES says (New) or nothing (Plain) *)
Theorem C40_context t i k l (b : bstate Vals Fns Ctls Tag) name : rooted t i k -> settings t k l ->
  processing (run t start) i b -> feature name ->
  (forall v, lastSays l name v -> enabled (getF (run t start) (s_feats b)) name = v)
  /\ ((forall s a v, In (s, a) l -> ~ says s a name v) -> enabled (getF (run t start) (s_feats b)) name = false).
Proof.
  intros R S P F. destruct (processing_feats _ _ _ P) as (c & C & ->).
  destruct (rooted_spec _ _ _ R) as [_ (c' & C' & X)]. assert (c' = c) by congruence. subst c'.
  rewrite X. destruct (settings_spec _ _ _ S) as [_ ->].
  destruct (C40_last_wins [] l name F) as [A B]. split; auto.
Qed.

(** feature calls change nothing but the features of contexts with the same origin *)
Theorem C32_features t o i k j kj : featureWith o = true -> receiver o = Some i -> rooted t i k -> rooted t j kj ->
  (kj <> k -> view (run (t ++ [o]) start) j = view (run t start) j)
  /\ (forall v w, view (run t start) j = Some v -> view (run (t ++ [o]) start) j = Some w ->
       fst (fst v) = fst (fst w) /\ snd v = snd w).
Proof.
  intros P R K J. rewrite run_snoc. unfold view.
  destruct (rooted_spec _ _ _ K) as [(o1 & O1 & R1) (c & C & F)].
  destruct (rooted_spec _ _ _ J) as [(o2 & O2 & R2) (d & D & G)].
  pose proof (step_effect (run t start) o) as E.
  destruct E as [E0 E1|f k' R'|i' c0 c' R' D' N'|i' c0 O N'|i' c0 c' R' P' N' C'|i' c0 h' R' P' N' L T X O S|i' n t' c0 r O N' T].
  - split; auto. intros v w -> [= ->]. auto.
  - congruence.
  - unfold deriving in D'. rewrite P, Bool.orb_true_r in D'. discriminate D'.
  - subst o. discriminate P.
  - destruct o; discriminate.
  - assert (i' = i) by congruence. subst i'. assert (c0 = c) by congruence. subst c0.
    assert (Y : nth_error (ctxs (addCtx (reset c) h')) j = Some d)
      by (cbn [addCtx ctxs]; rewrite X; now apply nth_error_snoc_l).
    rewrite D, Y. split.
    + intro NE.
      assert (Q1 : getF (addCtx (reset c) h') (c_feats d) = getF (run t start) (c_feats d)).
      { change (getF h' (c_feats d) = getF (run t start) (c_feats d)). apply O. rewrite F, G.
        intro Q. apply NE. eapply fidx_inj; eauto. }
      assert (Q2 : getT (addCtx (reset c) h') (c_tags d) = getT (run t start) (c_tags d)).
      { unfold getT. destruct (c_tags d); auto. change (tmaps (addCtx (reset c) h')) with (tmaps h'). now rewrite T. }
      now rewrite Q1, Q2.
    + intros v w [= <-] [= <-]. split; auto. cbn [snd]. unfold getT. destruct (c_tags d); auto.
      change (tmaps (addCtx (reset c) h')) with (tmaps h'). now rewrite T.
  - subst o. discriminate P.
Qed.

(** * C31: access rights of derived contexts *)

(** ** Specification: the settings a context was derived with *)
Inductive setting := SMode (m : N) | SFS (f : option fsys).
Definition settingOf (o : op) : list setting :=
  match o with OMode _ m => [SMode m] | OFS _ f => [SFS f] | _ => [] end.
(** [made t i l]: the context [i] of the history [t] was derived from a new
    context by calls among which [l] are, in this order, the WithMode and
    WithFileSystem calls *)
Inductive made : list op -> nat -> list setting -> Prop :=
| made_new : forall t o, receiver o = None -> made (t ++ [o]) (length (ctxs (run t start))) []
| made_with : forall t o i l j, made t i l -> receiver o = Some i -> deriving o = true ->
    snd (step (run t start) o) = RCtx j -> made (t ++ [o]) j (l ++ settingOf o)
| made_later : forall t o i l, made t i l -> made (t ++ [o]) i l.

(** the file system after a sequence of settings: the last one set *)
Definition fsAfter (l : list setting) : option fsys :=
  fold_left (fun f s => match s with SFS g => g | SMode _ => f end) l None.
Definition foreign (f : option fsys) : Prop := match f with Some (VFS _) => True | _ => False end.
Definition noMode (l : list setting) : Prop := forall m, ~ In (SMode m) l.

(** OS access is granted iff the last WithMode, if any, granted it and at no time
    since then (and at that time) another file system was set *)
Definition osGranted (l : list setting) : Prop :=
  (forall l1 m l2, l = l1 ++ SMode m :: l2 -> noMode l2 -> N.testbit m 1 = true)
  /\ (forall l1 l2, l = l1 ++ l2 -> noMode l2 -> ~ foreign (fsAfter l1)).
(** file access is granted iff the last WithMode, if any, granted it *)
Definition fileGranted (l : list setting) : Prop :=
  forall l1 m l2, l = l1 ++ SMode m :: l2 -> noMode l2 -> N.testbit m 0 = true.

Definition modeStep (x : N * option fsys) (s : setting) : N * option fsys :=
  match s with SMode m => (maskFor (snd x) m, snd x) | SFS f => (maskFor f (fst x), f) end.
Lemma made_spec t i l : made t i l ->
  exists c, nth_error (ctxs (run t start)) i = Some c
            /\ (c_mode c, c_fs c) = fold_left modeStep l (MODE_DEFAULT, None).
Proof.
  induction 1 as [t o R|t o i l j H IH R D J|t o i l H IH].
  - rewrite run_snoc. destruct (root_ctx (run t start) o R) as (d & E & _ & F & M & _).
    exists d. split; auto. cbn. congruence.
  - destruct IH as (c & C & M). rewrite run_snoc.
    destruct (derived _ _ _ _ R D J) as (c' & d & C' & E & _ & _ & F & X).
    assert (c' = c) by congruence. subst c'. exists d. split; auto.
    rewrite fold_left_app, <- M, F, X. destruct o; reflexivity.
  - destruct IH as (c & C & M). destruct (ctx_stays t o i c C) as (d & E & _ & A & B).
    exists d. split; auto. congruence.
Qed.
Lemma fold_fs l x : snd (fold_left modeStep l x) =
  fold_left (fun f s => match s with SFS g => g | SMode _ => f end) l (snd x).
Proof. revert x. induction l as [|[m|f] l IH]; intros [n g]; auto; cbn [fold_left]; rewrite IH; auto. Qed.
Lemma fold_mode1 l : N.testbit (fst (fold_left modeStep l (MODE_DEFAULT, None))) 1 = true <-> osGranted l.
Proof.
  induction l as [|s l IH] using rev_ind.
  - split; [|reflexivity]. intros _. split.
    + intros [|] m l2 E; discriminate E.
    + intros l1 l2 E _. symmetry in E. apply app_eq_nil in E. destruct E as [-> _]. cbn. tauto.
  - rewrite fold_left_app. cbn [fold_left].
    pose proof (fold_fs l (MODE_DEFAULT, None)) as FS. fold (fsAfter l) in FS. cbn [snd] in FS.
    fold (fsAfter l) in FS. change (snd (fold_left modeStep l (MODE_DEFAULT, None)) = fsAfter l) in FS.
    destruct (fold_left modeStep l (MODE_DEFAULT, None)) as [mo fs]. cbn [snd] in FS. subst fs. cbn [fst] in IH.
    destruct s as [m|f]; cbn [modeStep fst snd]; rewrite mask_bit1, Bool.andb_true_iff.
    + split.
      * intros [B F]. split.
        -- intros l1 m' l2 E N. destruct l2 as [|x l2 _] using rev_ind.
           ++ apply app_inj_tail in E. destruct E as [_ [= <-]]. exact B.
           ++ exfalso. rewrite app_comm_cons, app_assoc in E. apply app_inj_tail in E. destruct E as [_ <-].
              apply (N m). apply in_or_app. right. now left.
        -- intros l1 l2 E N. destruct l2 as [|x l2 _] using rev_ind.
           ++ rewrite app_nil_r in E. subst l1. unfold fsAfter. rewrite fold_left_app. cbn [fold_left].
              fold (fsAfter l). destruct (fsAfter l) as [[|]|]; try discriminate; auto.
           ++ exfalso. rewrite app_assoc in E. apply app_inj_tail in E. destruct E as [_ <-].
              apply (N m). apply in_or_app. right. now left.
      * intros [B F]. split.
        -- apply (B l m []); auto. now intros ? [].
        -- specialize (F (l ++ [SMode m]) []). rewrite app_nil_r in F. specialize (F eq_refl).
           assert (N : noMode []) by (now intros ? []). specialize (F N). unfold fsAfter in F.
           rewrite fold_left_app in F. cbn [fold_left] in F. fold (fsAfter l) in F.
           destruct (fsAfter l) as [[|]|]; auto. now elim F.
    + rewrite IH. split.
      * intros [[B F] G]. split.
        -- intros l1 m' l2 E N. destruct l2 as [|x l2 _] using rev_ind.
           ++ apply app_inj_tail in E. destruct E as [_ E]. discriminate E.
           ++ rewrite app_comm_cons, app_assoc in E. apply app_inj_tail in E. destruct E as [E <-].
              apply (B l1 m' l2 E). intros k I. apply (N k). apply in_or_app. now left.
        -- intros l1 l2 E N. destruct l2 as [|x l2 _] using rev_ind.
           ++ rewrite app_nil_r in E. subst l1. unfold fsAfter. rewrite fold_left_app. cbn [fold_left].
              destruct f as [[|]|]; try discriminate; auto.
           ++ rewrite app_assoc in E. apply app_inj_tail in E. destruct E as [E <-].
              apply (F l1 l2 E). intros k I. apply (N k). apply in_or_app. now left.
      * intros [B F]. split; [split|].
        -- intros l1 m l2 -> N. apply (B l1 m (l2 ++ [SFS f])).
           ++ now rewrite <- app_assoc.
           ++ intros k I. apply in_app_or in I. destruct I as [I|[I|[]]]; [apply (N k I)|discriminate I].
        -- intros l1 l2 -> N. apply (F l1 (l2 ++ [SFS f])).
           ++ now rewrite <- app_assoc.
           ++ intros k I. apply in_app_or in I. destruct I as [I|[I|[]]]; [apply (N k I)|discriminate I].
        -- specialize (F (l ++ [SFS f]) []). rewrite app_nil_r in F. specialize (F eq_refl).
           assert (N : noMode []) by (now intros ? []). specialize (F N). unfold fsAfter in F.
           rewrite fold_left_app in F. cbn [fold_left] in F. destruct f as [[|]|]; auto. now elim F.
Qed.
Lemma fold_mode0 l : N.testbit (fst (fold_left modeStep l (MODE_DEFAULT, None))) 0 = true <-> fileGranted l.
Proof.
  induction l as [|s l IH] using rev_ind.
  - split; [|reflexivity]. intros _ [|] m l2 E; discriminate E.
  - rewrite fold_left_app. cbn [fold_left].
    destruct (fold_left modeStep l (MODE_DEFAULT, None)) as [mo fs]. cbn [fst] in IH.
    destruct s as [m|f]; cbn [modeStep fst snd]; rewrite mask_bit0.
    + split.
      * intros B l1 m' l2 E N. destruct l2 as [|x l2 _] using rev_ind.
        -- apply app_inj_tail in E. destruct E as [_ [= <-]]. exact B.
        -- exfalso. rewrite app_comm_cons, app_assoc in E. apply app_inj_tail in E. destruct E as [_ <-].
           apply (N m). apply in_or_app. right. now left.
      * intros B. apply (B l m []); auto. now intros ? [].
    + rewrite IH. split.
      * intros B l1 m' l2 E N. destruct l2 as [|x l2 _] using rev_ind.
        -- apply app_inj_tail in E. destruct E as [_ E]. discriminate E.
        -- rewrite app_comm_cons, app_assoc in E. apply app_inj_tail in E. destruct E as [E <-].
           apply (B l1 m' l2 E). intros k I. apply (N k). apply in_or_app. now left.
      * intros B l1 m l2 -> N. apply (B l1 m (l2 ++ [SFS f])).
        -- now rewrite <- app_assoc.
        -- intros k I. apply in_app_or in I. destruct I as [I|[I|[]]]; [apply (N k I)|discriminate I].
Qed.

Lemma land_bit1 m : negb (N.eqb (N.land m 2) 0) = N.testbit m 1.
Proof. destruct m as [|[[p|p|]|[p|p|]|]]; reflexivity. Qed.
Lemma land_bit0 m : negb (N.eqb (N.land m 1) 0) = N.testbit m 0.
Proof. destruct m as [|[p|p|]]; reflexivity. Qed.

(** for every history of calls: the state a context processes documents with
    grants the execution of commands and the access to files exactly as the
    settings of the context's own derivation say, and uses its file system *)
Theorem C31_access t i l (b : bstate Vals Fns Ctls Tag) : made t i l -> processing (run t start) i b ->
  (osAllowed b = true <-> osGranted l) /\ (fileAllowed b = true <-> fileGranted l)
  /\ s_fs b = match fsAfter l with Some f => f | None => OSFS end.
Proof.
  intros M P. destruct (made_spec _ _ _ M) as (c & C & E).
  assert (X : s_mode b = maskFor (c_fs c) (c_mode c) /\ s_fs b = match c_fs c with Some f => f | None => OSFS end).
  { destruct P as (c' & C' & [->| ->]); assert (c' = c) by congruence; subst c'; auto. unfold bindingOf.
    destruct (c_bind c) as [b|] eqn:B; auto.
    destruct (run_inv t _ _ C) as (_ & _ & I). destruct (I _ B) as (X & _ & Y & _). auto. }
  destruct X as [X Y].
  assert (FS : c_fs c = fsAfter l).
  { change (snd (c_mode c, c_fs c) = fsAfter l). rewrite E. apply fold_fs. }
  unfold osAllowed, fileAllowed. rewrite X. unfold MODE_OS_ACCESS, MODE_FILE_ACCESS.
  rewrite land_bit1, land_bit0, mask_bit0, mask_bit1, Y, FS.
  assert (MO : c_mode c = fst (fold_left modeStep l (MODE_DEFAULT, None))) by now rewrite <- E.
  rewrite MO. split; [|split; [apply fold_mode0|reflexivity]].
  rewrite Bool.andb_true_iff, fold_mode1. split; [intros [G _]; exact G|].
  intro G. split; auto. destruct G as [_ G]. specialize (G l []). rewrite app_nil_r in G.
  specialize (G eq_refl). assert (N : noMode []) by (now intros ? []). specialize (G N).
  destruct (fsAfter l) as [[|]|]; auto. now elim G.
Qed.

(** in particular: another file system never goes with the execution of commands,
    whatever mode is asked for *)
Theorem C31_foreign_fs t i l (b : bstate Vals Fns Ctls Tag) : made t i l -> processing (run t start) i b ->
  foreign (fsAfter l) -> osAllowed b = false.
Proof.
  intros M P F. destruct (C31_access t i l b M P) as [O _]. destruct (osAllowed b); auto.
  destruct O as [O _]. destruct (O eq_refl) as [_ G]. elim (G l []); auto.
  - now rewrite app_nil_r.
  - now intros ? [].
Qed.
(** every context is made by some settings, so the theorems above apply to all *)
Theorem C31_made t i c : nth_error (ctxs (run t start)) i = Some c -> exists l, made t i l.
Proof.
  intro H. destruct (rooted_exists t i c H) as [k K]. clear H c.
  induction K as [t o R|t o i k j H [l IH] R D J|t o i k H [l IH]].
  - exists []. now apply made_new.
  - exists (l ++ settingOf o). eapply made_with; eauto.
  - exists l. now apply made_later.
Qed.

(** SetTag: a context for which CleanupTags was never called (on it or on one it
    was derived from) has no tag map; the call panics *)
Theorem C32_settag_panics (t : list op) i n (x : Tag) (c : ctx) : (forall j, ~ In (OCleanupTags j) t) ->
  nth_error (ctxs (run t start)) i = Some c ->
  snd (step (run t start) (OSetTag i n x)) = RPanic.
Proof.
  intros N H.
  assert (G : forall i c, nth_error (ctxs (run t start)) i = Some c -> c_tags c = None).
  { clear i c H. induction t as [|o t IH] using rev_ind; intros i c.
    - destruct i; discriminate.
    - assert (N' : forall j, ~ In (OCleanupTags j) t) by (intros j I; apply (N j), in_or_app; now left).
      specialize (IH N'). rewrite run_snoc. pose proof (step_effect (run t start) o) as E.
      destruct E as [F R|f k R|j c0 c' R D N0 e1 e2 e3 e4 e5 e6 e7|j c0 O N0|j c0 c' R P N0 C|j c0 h' R P N0 L T X O S|j n' t' c0 r O N0 T];
        cbn [ctxs addCtx addF putCtx addT putT]; rewrite ?X; intro HH; auto.
      + eauto.
      + apply nth_error_snoc in HH. destruct HH as [HH|[_ ->]]; eauto.
      + rewrite upd_nth in HH. destruct (_ && _)%bool; [|eauto]. injection HH as <-. rewrite e6. eauto.
      + exfalso. apply (N j). apply in_or_app. right. now left.
      + apply nth_error_snoc in HH. destruct HH as [HH|[_ ->]]; [eauto|]. destruct C as [-> _]. eauto.
      + apply nth_error_snoc in HH. destruct HH as [HH|[_ ->]]; [eauto|]. cbn. eauto.
      + rewrite (IH _ _ N0) in T. discriminate T. }
  unfold Context.step. rewrite H, (G _ _ H). reflexivity.
Qed.
End Contexts.

(** ** What does not hold *)

Local Notation op1 := (op unit unit unit unit).
Local Notation run1 := (run (Vals := unit) (fun _ : unit => Some tt)).
Local Notation enabledAt t i name :=
  (match view (run1 t start) i with Some (_, f, _) => enabled f name | None => false end).

(** WithInterpolation, WithControl and WithFeatures change the context they are
    called on (and all its relatives) *)
Theorem C32_features_refuted : exists (t : list op1) i o,
  featureWith o = true /\ receiver o = Some i
  /\ enabledAt t i "interpolation" = false /\ enabledAt (t ++ [o]) i "interpolation" = true.
Proof. exists [OPlain], 0%nat, (OInterpolation 0 true). repeat split. Qed.
(** a sibling derived earlier changes as well *)
Theorem C32_sibling_refuted : exists (t : list op1) i j o,
  featureWith o = true /\ receiver o = Some i /\ i <> j
  /\ enabledAt t j "control" = true /\ enabledAt (t ++ [o]) j "control" = false.
Proof.
  exists [OPlain; OControl 0 true], 0%nat, 1%nat, (OControl 0 false). repeat split; auto.
Qed.
(** SetTag changes the tags of its receiver *)
Theorem C32_settag_refuted : exists (t : list op1) i o,
  receiver o = Some i /\ (exists n x, o = OSetTag i n x)
  /\ match view (run1 t start) i, view (run1 (t ++ [o]) start) i with
     | Some (_, _, a), Some (_, _, b) => a = [] /\ b <> []
     | _, _ => False
     end.
Proof.
  exists [OPlain; OCleanupTags 0], 0%nat, (OSetTag 0 "a" tt). split; [reflexivity|]. split; [eauto|].
  vm_compute. split; [reflexivity|discriminate].
Qed.

(** the histories of the theorems exist: a context gets another file system, OS
    access is asked for, the file system is reset, and asked for again *)
Definition exT : list op1 := [ONew "control" "k"; OFS 0 (Some (VFS 7)); OMode 1 3; OFS 2 None; OMode 3 3; OPrepare 3 (fun t => t)].
Example C31_example :
  map (fun i => match nth_error (ctxs (run1 exT start)) i with
                | Some c => Some (osAllowed (bindingOf (run1 exT start) c), fileAllowed (bindingOf (run1 exT start) c))
                | None => None end) [0; 1; 2; 3; 4; 5]%nat
  = [Some (true, true); Some (false, true); Some (false, true); Some (false, true); Some (true, true); None].
Proof. vm_compute. reflexivity. Qed.
Example C31_example_made : made (fun _ : unit => Some tt) (exT : list op1) 3 [SFS (Some (VFS 7)); SMode 3; SFS None].
Proof.
  pose (s := fun _ : unit => Some tt).
  assert (A : made s ([ONew "control" "k"] : list op1) 0 []).
  { apply (made_new s [] (ONew "control" "k")). reflexivity. }
  assert (B : made s (([ONew "control" "k"] : list op1) ++ [OFS 0 (Some (VFS 7))]) 1 ([] ++ [SFS (Some (VFS 7))])).
  { apply (made_with s _ (OFS 0 (Some (VFS 7))) 0 [] 1 A); reflexivity. }
  assert (C : made s ((([ONew "control" "k"] : list op1) ++ [OFS 0 (Some (VFS 7))]) ++ [OMode 1 3]) 2 (([] ++ [SFS (Some (VFS 7))]) ++ [SMode 3])).
  { apply (made_with s _ (OMode 1 3) 1 _ 2 B); reflexivity. }
  assert (D : made s (((([ONew "control" "k"] : list op1) ++ [OFS 0 (Some (VFS 7))]) ++ [OMode 1 3]) ++ [OFS 2 None]) 3
                ((([] ++ [SFS (Some (VFS 7))]) ++ [SMode 3]) ++ [SFS None])).
  { apply (made_with s _ (OFS 2 None) 2 _ 3 C); reflexivity. }
  pose proof (made_later s _ (OMode 3 3) _ _ D) as E.
  exact (made_later s _ (OPrepare 3 (fun t => t)) _ _ E).
Qed.
Example C40_example_context : settings (fun _ : unit => Some tt) ([ONew "control" "k"; OInterpolation 0 true] : list op1) 0
                                       [("control", true); ("interpolation", true)].
Proof.
  pose (s := fun _ : unit => Some tt).
  assert (A : rooted s ([ONew "control" "k"] : list op1) 0 0) by (apply (rooted_new s [] (ONew "control" "k")); reflexivity).
  exact (st_set s [ONew "control" "k"] (OInterpolation 0 true) 0 0 [("control", true)]
           (st_new s [] "control" "k") eq_refl A).
Qed.

Print Assumptions C40_set.
Print Assumptions C40_unknown.
Print Assumptions C40_rejected_names.
Print Assumptions C40_last_wins.
Print Assumptions C40_only_features.
Print Assumptions C40_environment.
Print Assumptions C32_persistent.
Print Assumptions C32_history.
Print Assumptions C32_result.
Print Assumptions C32_processing.
Print Assumptions C40_context.
Print Assumptions C32_features.
Print Assumptions C31_access.
Print Assumptions C31_foreign_fs.
Print Assumptions C31_made.
Print Assumptions C32_settag_panics.
Print Assumptions C32_features_refuted.
Print Assumptions C32_sibling_refuted.
Print Assumptions C32_settag_refuted.
