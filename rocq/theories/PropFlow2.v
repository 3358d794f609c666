(** C03 (lookup in the stubs), C04 for whole runs, and counterexamples for C01, C02. *)
From Coq Require Import Lia Floats.SpecFloat.
From Verif Require Import Core CoreFacts Str StrFacts DecSpec Interp Find FindFacts EquivFacts PropInterp
  Cleanup Unresolved PropUnresolved DeepEq DeepEqFacts Env Flow FlowSpec FlowFacts FlowPass FlowMerge FlowStable PropFlow.

(** ** C03 *)
(** the flags of a merely implied value: bit 7 (implied) without bit 4 (default) *)
Definition merelyImplied (v : node) : Prop :=
  N.testbit (a_flags (ann v)) 7 = true /\ N.testbit (a_flags (ann v)) 4 = false.
(** the path is defined in the stub and not just implied *)
Definition provides (ctrl : bool) (s : node) (path : list string) (v : node) : Prop :=
  find false ctrl path s = FOk v /\ ~ merelyImplied v.
(** the stub has nothing (or just something implied) at the path *)
Definition passesOn (ctrl : bool) (s : node) (path : list string) : Prop :=
  find false ctrl path s = FNo \/ exists v, find false ctrl path s = FOk v /\ merelyImplied v.

Lemma implied_bit v : fImplied (nflags v) = true <-> merelyImplied v.
Proof.
  unfold fImplied, merelyImplied, nflags. set (f := a_flags (ann v)). change (N.lor FLAG_IMPLIED FLAG_DEFAULT) with 144%N.
  change FLAG_IMPLIED with 128%N. rewrite N.eqb_eq. split.
  - intro E. split.
    + assert (X : N.testbit (N.land f 144) 7 = N.testbit 128 7) by (rewrite E; reflexivity).
      rewrite N.land_spec in X. change (N.testbit 144 7) with true in X. rewrite andb_true_r in X. exact X.
    + assert (X : N.testbit (N.land f 144) 4 = N.testbit 128 4) by (rewrite E; reflexivity).
      rewrite N.land_spec in X. change (N.testbit 144 4) with true in X. rewrite andb_true_r in X. exact X.
  - intros [B7 B4]. apply N.bits_inj. intro i. rewrite N.land_spec.
    destruct (N.eqb_spec i 7) as [->|N7]; [rewrite B7; reflexivity|].
    destruct (N.eqb_spec i 4) as [->|N4]; [rewrite B4; reflexivity|].
    assert (A : N.testbit 144 i = false /\ N.testbit 128 i = false).
    { change 144%N with (N.lor (2 ^ 7) (2 ^ 4)). change 128%N with (2 ^ 7)%N. rewrite N.lor_spec, !N.pow2_bits_eqb.
      destruct (N.eqb_spec 7 i); [congruence|]. destruct (N.eqb_spec 4 i); [congruence|]. split; reflexivity. }
    destruct A as [-> ->]. apply andb_false_r.
Qed.
Lemma implied_no v : fImplied (nflags v) = false <-> ~ merelyImplied v.
Proof. rewrite <- implied_bit. destruct (fImplied (nflags v)); split; intros; try congruence; exfalso; auto. Qed.

Lemma lookup_app ctrl l1 l2 path : Forall (fun b => passesOn ctrl b path) l1 ->
  lookupStubs ctrl (l1 ++ l2) path = lookupStubs ctrl l2 path.
Proof.
  induction 1 as [|b r H F IH]; [reflexivity|]. cbn [app lookupStubs].
  destruct H as [E|[v [E I]]]; rewrite E; [exact IH|]. rewrite (proj2 (implied_bit v) I). exact IH.
Qed.
Theorem C03_first_wins : forall ctrl before s after path v,
  Forall (fun b => passesOn ctrl b path) before -> provides ctrl s path v ->
  forall b, b_stubs b = before ++ s :: after -> findInStubs ctrl b path = FOk v.
Proof.
  intros ctrl before s after path v F [E I] b Hb. unfold findInStubs. rewrite Hb, lookup_app by exact F.
  cbn [lookupStubs]. rewrite E, (proj2 (implied_no v) I). reflexivity.
Qed.
Theorem C03_only_first : forall ctrl b path v, findInStubs ctrl b path = FOk v ->
  exists before s after, b_stubs b = before ++ s :: after /\
    Forall (fun b => passesOn ctrl b path) before /\ provides ctrl s path v.
Proof.
  intros ctrl b path v. unfold findInStubs. induction (b_stubs b) as [|s r IH]; cbn [lookupStubs]; [discriminate|].
  destruct (find false ctrl path s) as [w| |] eqn:E; [|intro H|discriminate].
  - destruct (fImplied (nflags w)) eqn:I; intro H.
    + destruct (IH H) as [b0 [x [a [-> [F P]]]]]. exists (s :: b0), x, a. repeat split; try (apply P).
      constructor; [right; exists w; split; [exact E|apply implied_bit, I]|exact F].
    + inversion H; subst. exists [], s, r. repeat split; [constructor|exact E|apply implied_no, I].
  - destruct (IH H) as [b0 [x [a [-> [F P]]]]]. exists (s :: b0), x, a. repeat split; try (apply P).
    constructor; [left; exact E|exact F].
Qed.
Theorem C03_none : forall ctrl b path,
  findInStubs ctrl b path = FNo <-> Forall (fun s => passesOn ctrl s path) (b_stubs b).
Proof.
  intros ctrl b path. unfold findInStubs. split.
  - induction (b_stubs b) as [|s r IH]; cbn [lookupStubs]; [constructor|].
    destruct (find false ctrl path s) as [w| |] eqn:E; [|intro H|discriminate].
    + destruct (fImplied (nflags w)) eqn:I; [intro H|discriminate].
      constructor; [right; exists w; split; [exact E|apply implied_bit, I]|apply IH, H].
    + constructor; [left; exact E|apply IH, H].
  - intro F. rewrite <- (app_nil_r (b_stubs b)), lookup_app by exact F. reflexivity.
Qed.

(** ** C04 for whole runs *)
Inductive settled : node -> Prop :=
| settled_intro n : (forall e, val n <> VExpr e) -> a_failed (ann n) = false ->
    (forall l x, val n = VList l -> In x l -> settled x) ->
    (forall m k x, val n = VMap m -> In (k, x) m -> settled x) -> settled n.
Lemma settled_occurs n : settled n <-> forall p x, occurs n p x -> (forall e, val x <> VExpr e) /\ a_failed (ann x) = false.
Proof.
  split.
  - intros H p x O. revert H. induction O as [n|n m k e p x E I O IH|n l i e p x E I O IH]; intro H; inversion H as [? A B C D]; subst.
    + auto.
    + apply IH. eapply D; eassumption.
    + apply IH. eapply C; [exact E|]. eapply nth_error_In, I.
  - induction n as [v a s t r IH] using node_ind'. intro H. constructor.
    + apply (H [] _ (O_here _)).
    + apply (H [] _ (O_here _)).
    + intros l x E I. cbn [val] in E. subst v. cbn in IH. rewrite Forall_forall in IH. apply (IH x I).
      intros p y O. destruct (In_nth_error _ _ I) as [i Hi]. eapply H. eapply O_item; [reflexivity|exact Hi|exact O].
    + intros m k x E I. cbn [val] in E. subst v. cbn in IH. rewrite Forall_forall in IH. apply (IH (k, x) I).
      intros p y O. eapply H. eapply O_key; [reflexivity|exact I|exact O].
Qed.

Lemma settled_cleanup (St : Type) (test : St -> node -> bool * St) n : forall q, settled n -> settled (cleanup St test q n).
Proof.
  induction n as [v a s t r IH] using node_ind'. intros q H. inversion H as [? A B C D]; subst. cbn [val ann] in *.
  cbn [cleanup]. constructor; cbn [val ann].
  - intro e. destruct v; try discriminate. exact (A e).
  - exact B.
  - destruct v; try discriminate. intros l0 x E I. inversion E; subst l0. clear E. cbn in IH.
    specialize (C l). assert (C' : forall x, In x l -> settled x) by (intros y Hy; apply (C y eq_refl Hy)).
    clear - IH C' I. induction l as [|y l IHl]; [destruct I|]. inversion IH; subst.
    destruct (test q y) as [keep q']. destruct keep.
    + destruct I as [<-|I]; [apply H1, C'; left; reflexivity|]. apply IHl; auto. intros; apply C'; right; assumption.
    + apply IHl; auto. intros; apply C'; right; assumption.
  - destruct v; try discriminate. intros l0 k x E I. inversion E; subst l0. clear E. cbn in IH.
    specialize (D m). assert (C' : forall k x, In (k, x) m -> settled x) by (intros j y Hy; apply (D j y eq_refl Hy)).
    clear - IH C' I. induction m as [|[j y] l IHl]; [destruct I|]. inversion IH; subst.
    destruct (test q y) as [keep q']. destruct keep.
    + destruct I as [E|I]; [inversion E; subst; apply H1; eapply C'; left; reflexivity|]. apply IHl; auto. intros; eapply C'; right; eassumption.
    + apply IHl; auto. intros; eapply C'; right; eassumption.
Qed.

Lemma mset_inv {A} k (v : A) m j w : In (j, w) (mset k v m) -> (j, w) = (k, v) \/ In (j, w) m.
Proof.
  induction m as [|[k' v'] m IH]; cbn [mset].
  - intros [H|[]]. auto.
  - destruct (String.compare k k'); cbn; intuition.
Qed.
Lemma mof_inv {A} (l : list (string * A)) j w : In (j, w) (mof l) -> In (j, w) l.
Proof.
  unfold mof. rewrite <- fold_left_rev_right. rewrite (in_rev l). induction (rev l) as [|[k v] r IH]; cbn; [auto|].
  intro H. apply mset_inv in H. destruct H as [E|H]; [left; congruence|right; auto].
Qed.
Lemma settled_new v s : (forall e, v <> VExpr e) -> (forall l x, v = VList l -> In x l -> settled x) ->
  (forall m k x, v = VMap m -> In (k, x) m -> settled x) -> settled (newNode v s).
Proof.
  intros A B C. constructor; cbn [newNode val ann]; try reflexivity; destruct v; cbn [massage]; try discriminate; try assumption.
Qed.
Lemma settled_unescapeDynaml quote i n : settled n -> settled (unescapeDynaml quote n i).
Proof.
  intro H. inversion H as [? A B C D]; subst. unfold unescapeDynaml.
  destruct (val n) as [| | | | |t|l|m|e|p w b st q|p a1 b1 q] eqn:E; try exact H.
  - assert (X : forall u, settled (newNode (VStr u) (src n))) by (intro u; apply settled_new; discriminate).
    destruct (enclosed t) as [sub|]; [destruct (hasPrefix sub "!"); [apply X|exact H]|].
    cbv zeta. destruct (String.eqb (unescapeStr quote t i) t); [exact H|apply X].
  - destruct (existsb (fun p => escapedKey (fst p)) m); [|exact H].
    apply settled_new; [discriminate|discriminate|]. intros m0 k x E0 I. inversion E0; subst m0.
    apply mof_inv in I. apply in_map_iff in I. destruct I as [[j y] [E1 I]]. cbn in E1. inversion E1; subst.
    eapply D; [reflexivity|exact I].
Qed.
Lemma settled_unescape1 quote i n : settled n -> settled (unescape1 quote i n).
Proof.
  induction n as [v a s t r IH] using node_ind'. intro H. cbn [unescape1]. apply settled_unescapeDynaml.
  inversion H as [? A B C D]; subst. cbn [val ann] in *. constructor; cbn [val ann].
  - intro e. destruct v; try discriminate. exact (A e).
  - exact B.
  - destruct v; try discriminate. intros l0 x E I. inversion E; subst. cbn in IH. rewrite Forall_forall in IH.
    apply in_map_iff in I. destruct I as [y [<- I]]. apply (IH y I). eapply C; [reflexivity|exact I].
  - destruct v; try discriminate. intros l0 k x E I. inversion E; subst. cbn in IH. rewrite Forall_forall in IH.
    apply in_map_iff in I. destruct I as [[j y] [E1 I]]. inversion E1; subst. apply (IH (k, y) I). eapply D; [reflexivity|exact I].
Qed.
Lemma settled_unescapeDoc quote i n : settled n -> settled (unescapeDoc quote i n).
Proof.
  intro H. inversion H as [? A B C D]; subst. destruct n as [v a s t r]. cbn [val ann] in *. unfold unescapeDoc.
  destruct v; try exact H.
  - constructor; cbn [val ann]; [discriminate|exact B| |discriminate]. intros l0 x E I. inversion E; subst.
    apply in_map_iff in I. destruct I as [y [<- I]]. apply settled_unescape1. eapply C; [reflexivity|exact I].
  - constructor; cbn [val ann]; [discriminate|exact B|discriminate|]. intros l0 k x E I. inversion E; subst.
    apply in_map_iff in I. destruct I as [[j y] [E1 I]]. cbn in E1. inversion E1; subst. apply settled_unescape1. eapply D; [reflexivity|exact I].
Qed.

Section Run.
Variable ST : Type.
Variables interpol ctrl : bool.
Variable reg : registry.
Variable parse : string -> list string -> list string -> option expr.
Variable quote : string -> string.
Variable show : expr -> string.
Variable evaluate : expr -> binding -> bool -> ST -> res ST (value * info * bool).
Variable setTagX : string -> node -> list string -> bool -> ST -> bool * ST.
Variable ctlFunction : cctx -> binding -> ST -> res ST (node * bool).
Variable parseIssue : string -> issue.
Variables resetStream enter leave : ST -> ST.
Variable pushDocument : node -> ST -> ST.
Notation LOOP := (flowLoop ST interpol ctrl reg parse quote show evaluate setTagX ctlFunction).
Notation NESTED := (nestedFlow ST interpol ctrl reg parse quote show evaluate setTagX ctlFunction parseIssue enter leave).
Notation PREP := (prepareStubs ST interpol ctrl reg parse quote show evaluate setTagX ctlFunction parseIssue resetStream enter leave).
Notation APPLY := (apply ST interpol ctrl reg parse quote show evaluate setTagX ctlFunction parseIssue enter leave pushDocument).
Notation CASCADE := (cascade ST interpol ctrl reg parse quote show evaluate setTagX ctlFunction parseIssue resetStream enter leave pushDocument).
Notation parses := (parses parse).

Lemma nested_report fuel rounds outer n stubs s r u s' : NESTED fuel rounds outer n stubs s = Ret (r, u) s' ->
  u = findUnresolved parses parseIssue r [].
Proof.
  unfold nestedFlow, bind, change. destruct (envFlow _ _ _ _ _ _ _ _ _ _ _ _ _ _ _ _) as [x y| |]; [|discriminate|discriminate].
  unfold ret. intro E. inversion E; subst. reflexivity.
Qed.
Lemma fu_settled n : findUnresolved parses parseIssue n [] = [] -> settled n.
Proof.
  intro E. apply settled_occurs. intros p x O. pose proof (proj1 (C04_success parses parseIssue n) E p x O) as H.
  unfold openN in H. split.
  - intros e Ee. apply H. left. eauto.
  - destruct (a_failed (ann x)); [exfalso; apply H; auto|reflexivity].
Qed.

(** success: nothing is left to be evaluated and nothing failed *)
Theorem C04_cascade_success : forall fuel rounds outer T o stubs s r s',
  CASCADE fuel rounds outer T o stubs s = Ret (Some r, []) s' ->
  forall p x, occurs r p x -> (forall e, val x <> VExpr e) /\ a_failed (ann x) = false.
Proof.
  intros fuel rounds outer T o stubs s r s' H. apply settled_occurs. revert H. unfold cascade, bind.
  destruct (PREP fuel rounds outer (o_partial o) stubs s) as [[q|u] s1| |]; try discriminate.
  unfold change, apply, bind. destruct (NESTED fuel rounds outer T q (resetStream s1)) as [[n u] s2| |] eqn:E; try discriminate.
  apply nested_report in E. destruct u as [|x u]; unfold ret; intro H; inversion H; subst.
  symmetry in E. apply fu_settled in E.
  assert (D : settled (if o_temporary o then n else dropTemporary n))
    by (destruct (o_temporary o); [exact E|apply settled_cleanup, E]).
  destruct (o_escapes o); [exact D|]. apply settled_unescapeDoc, D.
Qed.
(** an error reports exactly the open nodes of the document, with their paths *)
Theorem C04_cascade_error : forall fuel rounds outer T o stubs s r u s',
  CASCADE fuel rounds outer T o stubs s = Ret (Some r, u) s' -> u <> [] ->
  (forall p x, occurs r p x -> openN parses x -> exists e, In e u /\ u_ctx e = p /\ val (u_node e) = val x) /\
  (forall e, In e u -> exists x, occurs r (u_ctx e) x /\ openN parses x).
Proof.
  intros fuel rounds outer T o stubs s r u s' H N. revert H. unfold cascade, bind.
  destruct (PREP fuel rounds outer (o_partial o) stubs s) as [[q|w] s1| |]; try discriminate.
  unfold change, apply, bind. destruct (NESTED fuel rounds outer T q (resetStream s1)) as [[n w] s2| |] eqn:E; try discriminate.
  apply nested_report in E. destruct w as [|x w]; unfold ret; intro H; cbn [fst snd] in H; inversion H; subst; [congruence|].
  split.
  - intros p y O Hy. rewrite E. destruct (C04_complete parses parseIssue r p y O Hy) as [e [I [C [V _]]]]. eauto.
  - intros e I. rewrite E in I. destruct (C04_sound parses parseIssue r e I) as [y [O [Hy _]]]. eauto.
Qed.
(** a stub that cannot be completely processed is an error, except with partial processing *)
Theorem C04_cascade_stub_error : forall fuel rounds outer T o stubs s u s',
  CASCADE fuel rounds outer T o stubs s = Ret (None, u) s' -> u <> [] /\ o_partial o = false.
Proof.
  intros fuel rounds outer T o stubs s u s'. unfold cascade, bind.
  assert (G : forall stubs s u s', PREP fuel rounds outer (o_partial o) stubs s = Ret (inr u) s' -> u <> [] /\ o_partial o = false).
  { clear. induction stubs as [|t r IH]; intros s u s'; cbn [prepareStubs]; [discriminate|]. unfold bind.
    destruct (PREP fuel rounds outer (o_partial o) r s) as [[q|w] s1| |] eqn:E1; try discriminate.
    - unfold change. destruct (NESTED fuel rounds outer t q (resetStream s1)) as [[n w] s2| |]; try discriminate.
      destruct w as [|x w]; [discriminate|]. destruct (o_partial o); [discriminate|]. unfold ret. intro E. inversion E; subst.
      split; [discriminate|reflexivity].
    - unfold ret. intro E. inversion E; subst. eapply IH. exact E1. }
  destruct (PREP fuel rounds outer (o_partial o) stubs s) as [[q|w] s1| |] eqn:E; try discriminate.
  - unfold change. destruct (APPLY fuel rounds outer T q o (resetStream s1)) as [x y| |]; discriminate.
  - unfold ret. intro H. inversion H; subst. eapply G, E.
Qed.

(** C01 does not hold for every document: with the number .nan the processing
    never ends, since a document with NaN is never found to be unchanged. *)
Definition nanDoc : node := newNode (VMap [("a", newNode (VFloat S754_nan) "t")]) "t".
Lemma nan_flow f env : b_stubs env = [] -> b_nomerge env = false -> forall s,
  flow ST interpol ctrl reg parse quote show evaluate setTagX ctlFunction (S (S f)) nanDoc env true false s = Ret nanDoc s.
Proof.
  intros E1 E2 s. destruct env as [a b c d e g h i j k l m]. cbn in E1, E2. subst e g.
  unfold flow, tagged, bind. destruct ctrl, interpol; reflexivity.
Qed.
Lemma nan_unequal : deepEqN nanDoc nanDoc = false.
Proof. reflexivity. Qed.
Lemma nan_loop fuel outer : forall rounds s, LOOP fuel rounds nanDoc nanDoc (newNested [] "t" outer) true s = Fuel.
Proof.
  induction rounds as [|k IH]; intro s; [reflexivity|]. cbn [flowLoop]. unfold bind.
  destruct fuel as [|[|f]].
  - reflexivity.
  - unfold flow, tagged, bind. destruct ctrl; reflexivity.
  - rewrite nan_flow by reflexivity. change (a_undefined (ann nanDoc)) with false. cbv iota.
    change (updateBinding ctrl nanDoc) with nanDoc. cbv zeta. rewrite nan_unequal. apply IH.
Qed.
Theorem C01_nan_refuted : exists T, (forall p x, occurs T p x -> forall e, val x <> VExpr e) /\
  forall fuel rounds outer o s, CASCADE fuel rounds outer T o [] s = Fuel.
Proof.
  exists nanDoc. split.
  - intros p x O e. inversion O as [|? m k c q y V I O'|? l i c q y V]; subst; [discriminate| |discriminate].
    cbn in V. inversion V; subst m. destruct I as [I|[]]. inversion I; subst.
    inversion O' as [|? m' ? ? ? ? V'|? ? ? ? ? ? V']; subst; discriminate.
  - intros fuel rounds outer o s. unfold cascade, bind. cbn [prepareStubs]. unfold ret, change, apply, nestedFlow, envFlow, bind, change.
    change (src nanDoc) with "t". rewrite nan_loop. reflexivity.
Qed.
End Run.

(** C02 fails for lists that become addressed in another way while they are merged:
    at first the elements have the same name, so they are addressed by index; then
    the first one gets another name, and the second one is looked up by name. *)
Section Unsteady.
Variable ST : Type.
Variables interpol ctrl : bool.
Variable reg : registry.
Variable parse : string -> list string -> list string -> option expr.
Variable quote : string -> string.
Variable show : expr -> string.
Variable evaluate : expr -> binding -> bool -> ST -> res ST (value * info * bool).
Variable setTagX : string -> node -> list string -> bool -> ST -> bool * ST.
Variable ctlFunction : cctx -> binding -> ST -> res ST (node * bool).
Variable parseIssue : string -> issue.
Variables resetStream enter leave : ST -> ST.
Variable pushDocument : node -> ST -> ST.
Notation CASCADE := (cascade ST interpol ctrl reg parse quote show evaluate setTagX ctlFunction parseIssue resetStream enter leave pushDocument).
Notation LOOP := (flowLoop ST interpol ctrl reg parse quote show evaluate setTagX ctlFunction).
Notation NESTED := (nestedFlow ST interpol ctrl reg parse quote show evaluate setTagX ctlFunction parseIssue enter leave).
Notation plain := (plainDoc ordinaryKey interpol).
Definition el (name : string) (z : Z) : node := newNode (VMap [("a", newNode (VInt z) "f"); ("name", newNode (VStr name) "f")]) "f".
Definition unT : node := newNode (VList [el "A" 1; el "A" 2]) "f".
Definition unS : node := newNode (VList [el "B" 10; newNode (VMap [("x", newNode (VInt 1) "f")]) "f"; el "A" 30]) "f".
Definition unR : node := mkNode (VList [el "B" 10; el "A" 30]) injectedAnn "f" None None.
Lemma lit_short i c : literalText i (String c "").
Proof.
  split.
  - intros x H. inversion H.
  - intros _ x y H. destruct x as [|d x]; [inversion H|]. inversion H. destruct x; discriminate.
Qed.
Lemma ord k : hasPrefix k "<<" = false -> hasPrefix k "key:" = false -> hasPrefix k "[" = false -> hasPrefix k "name:" = false -> ordinaryKey k.
Proof.
  assert (G : forall p, hasPrefix k p = false -> ~ startsWith p k).
  { intros p H E. apply hasPrefix_spec in E. congruence. }
  intros. repeat split; apply G; assumption.
Qed.
Lemma el_plain c z : plain (el (String c "") z).
Proof.
  apply PD_map.
  - cbn. repeat split; intros k' H; repeat (destruct H as [<-|H]; [reflexivity|]); destruct H.
  - repeat apply Forall_cons; try apply Forall_nil; apply ord; reflexivity.
  - repeat apply Forall_cons; try apply Forall_nil; apply PD_leaf; constructor; apply lit_short.
Qed.
Lemma unT_plain : plain unT.
Proof. apply PD_list; [auto|]. repeat apply Forall_cons; try apply Forall_nil; apply el_plain. Qed.
Lemma unS_plain : plain unS.
Proof.
  apply PD_list; [auto|]. constructor; [apply el_plain|]. constructor; [|constructor; [apply el_plain|constructor]].
  apply PD_map; [cbn; repeat split; intros ? []|repeat apply Forall_cons; try apply Forall_nil; apply ord; reflexivity|repeat apply Forall_cons; try apply Forall_nil; apply PD_leaf; constructor].
Qed.

Lemma unS_fits : fitsN unS.
Proof. cbn. unfold max64. repeat split; lia. Qed.
Lemma unT_fits : fitsN unT.
Proof. cbn. unfold max64. repeat split; lia. Qed.
Lemma unS_steady : steadyLists unS.
Proof.
  eapply SL_list; [reflexivity| |].
  - right. eexists. split; [right; left; reflexivity|]. intros m c E. cbn in E. inversion E; subst. intros [H|[]]. discriminate.
  - repeat apply Forall_cons; try apply Forall_nil; (eapply SL_map; [reflexivity|]; repeat apply Forall_cons; try apply Forall_nil; apply SL_leaf; discriminate).
Qed.
Lemma un_nested fuel k outer s : (9 <= fuel)%nat ->
  NESTED fuel (S (S (S k))) outer unT [unS] s = Ret (unR, []) (leave (enter s)).
Proof.
  intro HF.
  assert (SP : Forall plain [unS]) by (constructor; [apply unS_plain|constructor]).
  assert (SF : Forall fitsN [unS]) by (constructor; [apply unS_fits|constructor]).
  assert (P0 := unT_plain).
  assert (P1 : plain (passN ctrl [unS] true [] unT)) by (apply (pass_plain interpol ctrl ordinaryKey _ SP), P0).
  assert (P2 : plain (passN ctrl [unS] true [] (passN ctrl [unS] true [] unT))) by (apply (pass_plain interpol ctrl ordinaryKey _ SP), P1).
  assert (F1 : fitsN (passN ctrl [unS] true [] unT)) by (apply (fits_pass ctrl _ SF), unT_fits).
  assert (F2 : fitsN (passN ctrl [unS] true [] (passN ctrl [unS] true [] unT))) by (apply (fits_pass ctrl _ SF), F1).
  assert (E1 : passN ctrl [unS] true [] unT = mkNode (VList [el "B" 10; el "A" 2]) injectedAnn "f" None None) by (destruct ctrl; vm_compute; reflexivity).
  assert (E2 : passN ctrl [unS] true [] (passN ctrl [unS] true [] unT) = unR) by (rewrite E1; destruct ctrl; vm_compute; reflexivity).
  assert (E3 : passN ctrl [unS] true [] unR = unR) by (destruct ctrl; vm_compute; reflexivity).
  assert (OL : forall p, okP p -> lookupStubs ctrl [unS] p <> FPanic) by (intros p; apply (lk_nopanic interpol ctrl _ SP SF)).
  assert (OK : forall p k, okP p -> ordinaryKey k -> okP (p ++ [k])) by (intros; apply okP_app; [assumption|apply ok_ordinary; assumption]).
  assert (OI : forall p i, okP p -> 0 <= i <= max64 -> okP (p ++ [idx i])) by (intros; apply okP_app; [assumption|apply ok_index; assumption]).
  assert (ON : forall p x, okP p -> okP (p ++ [("name:" +++ x)%string])) by (intros; apply okP_app; [assumption|apply ok_named]).
  assert (B : benv [unS] (newNested [unS] (src unT) outer) []) by apply newNested_benv.
  assert (O0 : okP []) by constructor.
  rewrite E2 in P2, F2. rewrite E1 in P1, F1, E2.
  eapply (nested_of_loop ST interpol ctrl reg parse quote show evaluate setTagX ctlFunction parseIssue enter leave ordinaryKey); [exact P2|].
  intro s1.
  rewrite (loop_step ST interpol ctrl reg parse quote show evaluate setTagX ctlFunction ordinaryKey ordinary_quiet [unS] SP okP OL OK OI ON O0);
    [|exact P0|apply unT_fits|cbn; lia|exact B].
  rewrite E1. replace (deepEqN unT (mkNode (VList [el "B" 10; el "A" 2]) injectedAnn "f" None None)) with false by (vm_compute; reflexivity).
  rewrite (loop_step ST interpol ctrl reg parse quote show evaluate setTagX ctlFunction ordinaryKey ordinary_quiet [unS] SP okP OL OK OI ON O0);
    [|exact P1|exact F1|cbn; lia|exact B].
  rewrite E2. replace (deepEqN _ unR) with false by (vm_compute; reflexivity).
  rewrite (loop_step ST interpol ctrl reg parse quote show evaluate setTagX ctlFunction ordinaryKey ordinary_quiet [unS] SP okP OL OK OI ON O0);
    [|exact P2|exact F2|cbn; lia|exact B].
  rewrite E3. replace (deepEqN unR unR) with true by (vm_compute; reflexivity). reflexivity.
Qed.
Theorem C02_unsteady_refuted : exists T stub r, plain T /\ plain stub /\ fitsN T /\ fitsN stub /\ steadyLists stub /\
  ~ merges ctrl [stub] true [] T r /\
  forall fuel rounds outer o s, (9 <= fuel)%nat -> (3 <= rounds)%nat ->
    exists s', CASCADE fuel rounds outer T o [stub] s = Ret (Some r, []) s'.
Proof.
  exists unT, unS, unR. split; [exact unT_plain|]. split; [exact unS_plain|]. split; [exact unT_fits|].
  split; [exact unS_fits|]. split; [exact unS_steady|]. split.
  - intro H. inversion H as [? ? ? ? ? ? E1|? ? ? l steps ? l' E1 E2 St ML|? ? ? ? N1|? ? ? ? N1]; subst.
    + discriminate.
    + cbn in E1, E2. inversion E1; subst l. inversion E2; subst l'. clear E1 E2 H.
      destruct St as [[names [F2 [ND _]]]|[_ BI]].
      * inversion F2 as [|? n1 ? ? Na F2']; subst. inversion F2' as [|? n2 ? ? Nb F2'']; subst.
        destruct Na as [m1 [c1 [V1 [I1 W1]]]]. destruct Nb as [m2 [c2 [V2 [I2 W2]]]]. cbn in V1, V2.
        inversion V1; subst. inversion V2; subst.
        destruct I1 as [I1|[I1|[]]]; inversion I1; subst. destruct I2 as [I2|[I2|[]]]; inversion I2; subst.
        cbn in W1, W2. inversion W1; subst. inversion W2; subst. inversion ND as [|? ? X]; subst. apply X. left. reflexivity.
      * unfold byIndex in BI. cbn in BI. subst steps. inversion ML as [|? ? ? ? ? ? ? _ ML2]; subst. inversion ML2 as [|? ? ? ? ? ? ? M2 _]; subst.
        destruct (merges_map _ _ _ _ _ _ _ M2 eq_refl) as [m' [V F]]. cbn in V. inversion V; subst m'.
        inversion F as [|? ? ? ? [_ Ma] _]; subst. cbn [fst snd] in Ma.
        inversion Ma as [? ? ? ? ? ? E1|? ? ? ? ? ? ? E1|? ? ? ? _ _ _ E|? ? v ? _ _ D S0]; subst; try discriminate.
        destruct D as [b [x [a [E [Fd _]]]]]. destruct b as [|b0 b]; [|destruct b; discriminate]. inversion E; subst.
        destruct ctrl; vm_compute in Fd; discriminate.
    + exfalso. eapply N1. reflexivity.
    + exfalso. eapply N1. reflexivity.
  - intros fuel rounds outer o s HF HR. destruct rounds as [|[|[|k]]]; try lia.
    assert (PR : plain unR).
    { apply PD_list; [right; reflexivity|]. repeat apply Forall_cons; try apply Forall_nil; apply el_plain. }
    pose proof (two_nested ST interpol ctrl reg parse quote show evaluate setTagX ctlFunction parseIssue enter leave [] (Forall_nil _) (Forall_nil _)
      unS unS_plain unS_fits unS_steady fuel (S (S (S k))) outer) as TN.
    assert (RS : result ctrl [] unS = unS) by (unfold result; rewrite !pass_nil; reflexivity).
    assert (ND : need ctrl [] unS = 3%nat) by (unfold need; rewrite RS, pass_nil; reflexivity).
    rewrite RS, ND in TN.
    eexists. unfold cascade, bind. cbn [prepareStubs]. unfold bind, ret, change. rewrite TN by lia.
    rewrite (dropLocal_plain ordinaryKey interpol _ unS_plain).
    rewrite (apply_of_nested ST interpol ctrl reg parse quote show evaluate setTagX ctlFunction parseIssue enter leave pushDocument
               ordinaryKey ordinary_quiet _ _ _ _ _ _ _ _ _ PR (un_nested fuel k outer _ HF)). reflexivity.
Qed.
End Unsteady.

(** ** the hypotheses are met *)
Definition exT : node := newNode (VMap
  [("l", newNode (VList [el "A" 1; el "B" 2]) "t"); ("m", newNode (VMap [("x", newNode (VInt 1) "t")]) "t"); ("z", newNode VNil "t")]) "t".
Definition exS1 : node := newNode (VMap [("m", newNode (VMap [("x", newNode (VInt 5) "s")]) "s"); ("q", newNode (VInt 1) "s")]) "s".
Definition exS2 : node := newNode (VMap [("m", newNode (VMap [("x", newNode (VInt 7) "s")]) "s"); ("z", newNode (VStr "v") "s")]) "s".
Definition exS3 : node := newNode (VMap [("m", newNode (VMap [("y", newNode (VInt 9) "s")]) "s")]) "s".
Lemma ex_plain i : Forall (plainDoc ordinaryKey i) (exT :: [exS1] ++ exS2 :: [exS3]).
Proof.
  repeat (first [apply PD_list; [auto|] | apply el_plain | apply PD_leaf; constructor; apply lit_short | apply PD_leaf; constructor
           | apply PD_map; [cbn; repeat split; intros k' H; repeat (destruct H as [<-|H]; [reflexivity|]); destruct H
                           | repeat apply Forall_cons; try apply Forall_nil; apply ord; reflexivity |]
           | apply Forall_cons | apply Forall_nil ]).
Qed.
Lemma ex_fits : Forall fitsN (exT :: [exS1] ++ exS2 :: [exS3]).
Proof. repeat constructor; cbn; unfold max64; repeat split; try lia. Qed.
Lemma ex_steady : Forall steadyLists (exT :: [exS1] ++ exS2 :: [exS3]).
Proof.
  repeat (first [apply SL_leaf; discriminate | eapply SL_map; [reflexivity|]
       | eapply SL_list; [reflexivity|left; exists ["A"; "B"]; split; [repeat apply Forall2_cons; try apply Forall2_nil; (eexists; eexists; split; [reflexivity|split; [right; left; reflexivity|reflexivity]])|
                                        apply NoDup_cons; [intros [H|[]]; discriminate|]; apply NoDup_cons; [intros []|apply NoDup_nil]]|]
       | apply Forall_cons | apply Forall_nil]).
Qed.
Example C02_last_wins_nonvacuous :
  at_ exT ["m"; "x"] (newNode (VInt 1) "t") /\ at_ exS2 ["m"; "x"] (newNode (VInt 7) "s") /\
  Forall (fun b => lacks b ["m"; "x"] \/ exists w, at_ b ["m"; "x"] w /\ isLeafN w) [exS1] /\
  Forall (fun a => lacks a ["m"; "x"]) [exS3].
Proof.
  split; [|split; [|split]].
  - eapply at_key; [reflexivity|right; left; reflexivity|]. eapply at_key; [reflexivity|left; reflexivity|constructor].
  - eapply at_key; [reflexivity|left; reflexivity|]. eapply at_key; [reflexivity|left; reflexivity|constructor].
  - constructor; [|constructor]. right. eexists. split.
    + eapply at_key; [reflexivity|left; reflexivity|]. eapply at_key; [reflexivity|left; reflexivity|constructor].
    + split; discriminate.
  - constructor; [|constructor]. eapply lacks_below; [reflexivity|left; reflexivity|]. eapply lacks_key; [reflexivity|].
    intros c [H|[]]. discriminate.
Qed.
Example C01_nonvacuous : plainDoc quietKey true exT /\ fitsN exT.
Proof.
  split.
  - assert (M : forall n, plainDoc ordinaryKey true n -> plainDoc quietKey true n).
    { induction n as [v a s t r IH] using node_ind'. intro H. inversion H as [? ? Hv|? ? ? Ha Hl|? ? Hs Hk Hm]; subst.
      - apply PD_leaf, Hv.
      - apply PD_list; [exact Ha|]. cbn in IH. rewrite Forall_forall in *. auto.
      - apply PD_map; [exact Hs| |].
        + eapply Forall_impl; [|exact Hk]. intros kv [Hq _]. exact Hq.
        + cbn in IH. rewrite Forall_forall in *. auto. }
    apply M. pose proof (ex_plain true) as H. inversion H; assumption.
  - pose proof ex_fits as H. inversion H; assumption.
Qed.
Example C03_nonvacuous :
  Forall (fun b => passesOn true b ["m"; "x"]) [exS3] /\ provides true exS2 ["m"; "x"] (newNode (VInt 7) "s").
Proof.
  split.
  - constructor; [left; reflexivity|constructor].
  - split; [reflexivity|]. intros [H _]. discriminate.
Qed.

Print Assumptions C03_first_wins.
Print Assumptions C03_only_first.
Print Assumptions C03_none.
Print Assumptions C04_cascade_success.
Print Assumptions C04_cascade_error.
Print Assumptions C04_cascade_stub_error.
Print Assumptions C01_nan_refuted.
Print Assumptions C02_unsteady_refuted.
