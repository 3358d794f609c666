(** C45: the merge loop stops exactly at a fixpoint of the processing.  C02 and
    the zeros. *)
From Coq Require Import Floats.SpecFloat Lia.
From Verif Require Import Core CoreFacts DeepEq DeepEqFacts EncInj Find Env Unresolved Cleanup Flow FlowSpec Str StrFacts PropUnresolved.

(** The comparison of the loop is the equality of documents (away from the
    floating point zeros and NaN). *)
Theorem C45_equal : forall a b, zeroFree (encN a) = true -> deepEqN a b = true -> a = b.
Proof. intros a b Z E. apply encN_inj, tree_eqb_eq; assumption. Qed.
Theorem C45_equal_iff : forall a b, zeroFree (encN a) = true -> nonan (encN a) = true ->
  (deepEqN a b = true <-> a = b).
Proof.
  intros a b Z N. split; [apply C45_equal; assumption|]. intros <-. apply tree_eqb_refl, N.
Qed.

(** defined, not failed, and nothing in it is left to be evaluated *)
Definition settledN (ctrl : bool) (n : node) : Prop :=
  a_failed (ann n) = false /\ a_undefined (ann n) = false /\
  forall p x, occurs n p x ->
    (forall e, val x <> VExpr e) /\
    (forall e, val x = VStr ("((" +++ e +++ "))")%string -> exists r, e = String "!" r) /\
    (forall m, val x = VMap m -> mapResolved ctrl m = true).
Lemma resolvedNode_spec ctrl n : isResolvedNode ctrl n = true <-> settledN ctrl n.
Proof.
  unfold isResolvedNode, settledN. rewrite andb_true_iff, C04_resolved, negb_true_iff, orb_false_iff. tauto.
Qed.

Section Run.
Variable ST : Type.
Variables interpol ctrl : bool.
Variable reg : registry.
Variable parse : string -> list string -> list string -> option expr.
Variable quote : string -> string.
Variable show : expr -> string.
Variable evaluate : expr -> binding -> bool -> ST -> res ST (value * info * bool).
Variable setTagX : string -> node -> list string -> bool -> ST -> bool * ST.
Variable ctlFunction : cctx -> binding -> ST -> res ST (node * bool).
Variable parseIssue : string -> issue.
Variables resetStream enter leave : ST -> ST.
Variable pushDocument : node -> ST -> ST.
Notation FLOW := (flow ST interpol ctrl reg parse quote show evaluate setTagX ctlFunction).
Notation LOOP := (flowLoop ST interpol ctrl reg parse quote show evaluate setTagX ctlFunction).
Notation CASCADE := (cascade ST interpol ctrl reg parse quote show evaluate setTagX ctlFunction parseIssue resetStream enter leave pushDocument).

(** one round: all nodes are processed once and the lambda scopes are refreshed *)
Definition roundOf (fuel : nat) (source : node) (e : binding) (so : bool) (d : node) (s : ST) (d' : node) (s' : ST) : Prop :=
  exists x, FLOW fuel d (match val source with VList l => withListScope l e | _ => e end) so false s = Ret x s' /\
            a_undefined (ann x) = false /\ d' = updateBinding ctrl x.
(** any number of rounds *)
Inductive roundsOf (fuel : nat) (source : node) (e : binding) (so : bool) : node -> ST -> node -> ST -> Prop :=
| R_none d s : roundsOf fuel source e so d s d s
| R_more d s d1 s1 d2 s2 : roundOf fuel source e so d s d1 s1 -> roundsOf fuel source e so d1 s1 d2 s2 ->
    roundsOf fuel source e so d s d2 s2.

(** Whatever the evaluator does: a document that is returned was reached by rounds,
    and the last round did not change it. *)
Theorem C45_fixpoint : forall fuel rounds source start e so s r s',
  LOOP fuel rounds source start e so s = Ret r s' -> zeroFree (encN r) = true ->
  r = undefinedNode (newNode VNil "__ctx") \/
  exists s1, roundsOf fuel source e so start s r s1 /\ roundOf fuel source e so r s1 r s'.
Proof.
  intros fuel rounds source start e so s r s'. revert start s.
  induction rounds as [|k IH]; intros start s; cbn [flowLoop]; [discriminate|]. unfold bind.
  set (env := match val source with VList l => withListScope l e | _ => e end) in *.
  destruct (FLOW fuel start env so false s) as [x s1| |] eqn:F; try discriminate.
  destruct (a_undefined (ann x)) eqn:U.
  - unfold ret. intros H _. inversion H; subst. left. reflexivity.
  - cbv zeta. destruct (deepEqN start (updateBinding ctrl x)) eqn:D.
    + unfold ret. intros H Z. inversion H; subst. right. exists s. split; [constructor|].
      exists x. fold env. split; [exact F|]. split; [exact U|]. apply C45_equal; assumption.
    + intros H Z. destruct (IH _ _ H Z) as [->|[s2 [R1 R2]]]; [left; reflexivity|right].
      exists s2. split; [|exact R2]. eapply R_more; [|exact R1]. exists x. fold env. auto.
Qed.

(** and conversely: a fixpoint that is reached is returned *)
Theorem C45_returned : forall fuel source start e so s r s1 s',
  roundsOf fuel source e so start s r s1 -> roundOf fuel source e so r s1 r s' ->
  nonan (encN r) = true ->
  exists rounds r' s2, LOOP fuel rounds source start e so s = Ret r' s2.
Proof.
  intros fuel source start e so s r s1 s' H. revert s'.
  induction H as [d s|d s d1 s1 d2 s2 R _ IH]; intros s' F N.
  - destruct F as [x [F [U E]]]. exists 1%nat, d, s'. cbn [flowLoop]. unfold bind. rewrite F, U. cbv zeta.
    rewrite <- E. unfold deepEqN. rewrite tree_eqb_refl by exact N. reflexivity.
  - destruct (IH s' F N) as [k [r' [s3 E]]]. destruct R as [x [F1 [U ->]]].
    destruct (deepEqN d (updateBinding ctrl x)) eqn:D.
    + exists 1%nat, d, s1. cbn [flowLoop]. unfold bind. rewrite F1, U. cbv zeta. rewrite D. reflexivity.
    + exists (S k), r', s3. cbn [flowLoop]. unfold bind. rewrite F1, U. cbv zeta. rewrite D. exact E.
Qed.

(** Without the exclusion of zeros this and C02 fail: a stub that overrides 0.0 by
    -0.0 has no effect, since the new document compares equal to the old one. *)
Definition zeroDoc (neg : bool) : node := newNode (VMap [("a", newNode (VFloat (S754_zero neg)) "t")]) "t".
Theorem C02_zero_refuted : forall fuel rounds outer o s,
  enter s = s -> leave s = s -> resetStream s = s -> (forall n, pushDocument n s = s) -> o_temporary o = true -> o_escapes o = true ->
  CASCADE (S (S fuel)) (S rounds) outer (zeroDoc false) o [zeroDoc true] s = Ret (Some (zeroDoc false), []) s.
Proof.
  intros fuel rounds outer o s He Hl Hr Hp Ht Hes. unfold cascade, bind. cbn [prepareStubs]. unfold bind, ret, change.
  rewrite ?Hr.
  assert (G : forall b stubs, stubs = [] \/ stubs = [zeroDoc true] ->
     envFlow ST interpol ctrl reg parse quote show evaluate setTagX ctlFunction (S (S fuel)) (S rounds) (zeroDoc b) (newNested stubs "t" outer) true s = Ret (zeroDoc b) s).
  { intros b stubs [->| ->]; unfold envFlow, bind; cbn [flowLoop]; unfold bind, flow, tagged, bind; destruct ctrl, interpol, b; reflexivity. }
  unfold nestedFlow, bind, change. rewrite He. change (src (zeroDoc true)) with "t". rewrite (G true []) by auto. rewrite Hl.
  unfold ret. change (findUnresolved (parses parse) parseIssue (zeroDoc true) []) with (@nil unres). cbv iota.
  change (dropLocal (zeroDoc true)) with (zeroDoc true).
  cbv beta iota. rewrite Hr.
  unfold apply, nestedFlow, bind, change. rewrite He. change (src (zeroDoc false)) with "t". rewrite (G false [zeroDoc true]) by auto. rewrite Hl.
  unfold ret. change (findUnresolved (parses parse) parseIssue (zeroDoc false) []) with (@nil unres). cbv iota.
  rewrite Ht, Hes, Hp. reflexivity.
Qed.

(** C29: a node with a tag mark is assigned to its tag exactly when it is defined,
    has not failed and is completely resolved; a mark with a star is a global
    tag, all others end with the stream. *)
Lemma sdrop_app a b : sdrop (String.length a) (a +++ b)%string = b.
Proof.
  unfold sdrop. rewrite slength_app, substring_app_r.
  replace (String.length a + String.length b - String.length a)%nat with (String.length b) by lia.
  apply substring_full.
Qed.
Theorem C29_assigned : forall rec root env so et s n s1,
  rec root env so et s = Ret n s1 ->
  (a_tag (ann n) = "" \/ ~ settledN ctrl n -> tagged ST ctrl setTagX rec root env so et s = Ret n s1) /\
  (forall t, settledN ctrl n ->
    (a_tag (ann n) = String "*" t -> setTagX t n (b_path env) false s1 = (true, snd (setTagX t n (b_path env) false s1)) ->
       tagged ST ctrl setTagX rec root env so et s = Ret n (snd (setTagX t n (b_path env) false s1))) /\
    (a_tag (ann n) = t -> t <> "" -> (forall r, t <> String "*" r) ->
       setTagX t n (b_path env) true s1 = (true, snd (setTagX t n (b_path env) true s1)) ->
       tagged ST ctrl setTagX rec root env so et s = Ret n (snd (setTagX t n (b_path env) true s1)))) /\
  (forall t, settledN ctrl n -> a_tag (ann n) = t -> t <> "" ->
     (forall p stream, fst (setTagX p n (b_path env) stream s1) = false) ->
     exists n' s2, tagged ST ctrl setTagX rec root env so et s = Ret n' s2 /\ a_failed (ann n') = true /\ a_error (ann n') = true).
Proof.
  intros rec root env so et s n s1 H. unfold tagged, bind. rewrite H. cbv beta zeta iota. split; [|split].
  - intros [E|E].
    + rewrite E, andb_false_r. reflexivity.
    + destruct (isResolvedNode ctrl n) eqn:R; [|reflexivity]. exfalso. apply E, resolvedNode_spec, R.
  - intros t E. apply resolvedNode_spec in E. rewrite E. split.
    + intros -> Q. assert (X : hasPrefix (String "*" t) "*" = true) by (apply hasPrefix_spec; exists t; reflexivity). rewrite X.
      change (negb (String.eqb (String "*" t) "")) with true. cbn [andb].
      replace (sdrop 1 (String "*" t)) with t.
      * rewrite Q. reflexivity.
      * symmetry. exact (sdrop_app "*" t).
    + intros -> N S Q. destruct (String.eqb_spec t "") as [|_]; [contradiction|]. cbn [negb andb].
      destruct (hasPrefix t "*") eqn:X.
      * apply hasPrefix_spec in X. destruct X as [r ->]. exfalso. apply (S r). reflexivity.
      * rewrite Q. reflexivity.
  - intros t E -> N F. apply resolvedNode_spec in E. rewrite E. destruct (String.eqb_spec t "") as [|_]; [contradiction|]. cbn [negb andb].
    destruct (hasPrefix t "*").
    + specialize (F (sdrop 1 t) false). destruct (setTagX _ _ _ _ _) as [[] s2]; [discriminate|].
      eexists _, s2. split; [reflexivity|]. destruct n as [v a sr tm rs]; destruct v; split; reflexivity.
    + specialize (F t true). destruct (setTagX _ _ _ _ _) as [[] s2]; [discriminate|].
      eexists _, s2. split; [reflexivity|]. destruct n as [v a sr tm rs]; destruct v; split; reflexivity.
Qed.
End Run.

(** non-vacuity: a round that changes the document and a second one that does not *)
Definition fxReg : registry := mkReg (fun _ => None) (fun _ => false) (fun _ _ => false).
Definition fxLoop := flowLoop unit false false fxReg (fun _ _ _ => None) (fun s => s) (fun _ => "")
   (fun _ _ _ s => Ret (VNil, defaultInfo, true) s) (fun _ _ _ _ s => (true, s)) (fun c _ s => Ret (newNode VNil "", true) s).
Definition fxT (z : Z) : node := newNode (VMap [("a", newNode (VInt z) "t")]) "t".
Example C45_ex : fxLoop 5 5 (fxT 1) (fxT 1) (newNested [fxT 2] "t" None) true tt = Ret (fxT 2) tt /\ zeroFree (encN (fxT 2)) = true
  /\ nonan (encN (fxT 2)) = true /\ fxT 1 <> fxT 2.
Proof. repeat split; try reflexivity. discriminate. Qed.
Example C45_ex2 : let n e := newNode (VExpr e) "" in
  deepEqN (n (EAdd (EInt 1) (EInt 2))) (n (ESub (EInt 1) (EInt 2))) = false /\
  deepEqN (undefinedNode (newNode VNil "")) (newNode VNil "") = false.
Proof. split; reflexivity. Qed.
Example C29_ex : settledN false (newNode (VInt 1) "").
Proof.
  apply (proj1 (resolvedNode_spec false (newNode (VInt 1) ""))). reflexivity.
Qed.

Print Assumptions C45_equal.
Print Assumptions C45_equal_iff.
Print Assumptions C45_fixpoint.
Print Assumptions C45_returned.
Print Assumptions C02_zero_refuted.
Print Assumptions C29_assigned.
