(** The merge engine on plain documents (C01, C02). *)
From Coq Require Import Lia Floats.SpecFloat.
From Verif Require Import Core CoreFacts Str StrFacts DecSpec Interp Find FindFacts EquivFacts PropInterp
  Cleanup Unresolved PropUnresolved DeepEq DeepEqFacts Env Flow FlowSpec.

(** ** texts *)
Lemma literal_enclosed interpol s : literalText interpol s -> enclosed s = None.
Proof.
  intros [H _]. destruct (enclosed s) as [x|] eqn:E; [|reflexivity].
  apply enclosed_spec in E. exfalso. exact (H x E).
Qed.
Lemma literal_convert quote s u : literalText true s -> convertToExpression quote s u = (Some s, None).
Proof.
  intros [_ H]. specialize (H eq_refl). unfold convertToExpression, conv0.
  destruct (texty_notOpen s H) as [k [Hk Hk1]].
  rewrite (texty_step quote u 0 s k Hk) by lia. cbn [c_start c_str c_expr c_result c_found String.append].
  unfold addExpr. assert (P0 : hasPrefix "" "!" = false) by reflexivity.
  rewrite P0, andb_false_r. rewrite P0. cbv beta iota zeta. reflexivity.
Qed.
Lemma literal_embedded quote interpol n s : val n = VStr s -> literalText interpol s ->
  embeddedDynaml quote n interpol = None.
Proof.
  intros E H. unfold embeddedDynaml. rewrite E, (literal_enclosed _ _ H).
  destruct interpol; [|reflexivity]. rewrite literal_convert by exact H. reflexivity.
Qed.
Lemma literal_unescape quote interpol i s : (i = true -> interpol = true) -> literalText interpol s -> unescapeStr quote s i = s.
Proof.
  intros Hi H. unfold unescapeStr. rewrite (literal_enclosed _ _ H).
  destruct i; [|reflexivity]. rewrite (Hi eq_refl) in H. rewrite literal_convert by exact H. reflexivity.
Qed.

(** ** keys *)
Lemma not_starts p k : ~ startsWith p k -> hasPrefix k p = false.
Proof.
  intro H. destruct (hasPrefix k p) eqn:E; [|reflexivity]. apply hasPrefix_spec in E. contradiction.
Qed.
Lemma quiet_ctl k : quietKey k -> hasPrefix k "<<" = false.
Proof. intros [H _]. apply not_starts, H. Qed.
Lemma quiet_neq k : quietKey k -> k <> "<<" /\ k <> MERGEKEY.
Proof.
  intros [H _]. split; intros ->; apply H; [exists ""|exists "<"]; reflexivity.
Qed.
Lemma quiet_keyTag k : quietKey k -> keyTag k = None.
Proof.
  intros [_ H]. unfold keyTag. destruct (cutColon k) as [[a b]|] eqn:E; [|reflexivity].
  destruct (String.eqb_spec a "key") as [->|]; [|reflexivity].
  apply cutColon_spec in E. exfalso. apply H. destruct E as [-> _]. exists b. reflexivity.
Qed.

Definition quietMap (m : smap node) : Prop := Forall (fun kv => quietKey (fst kv)) m.
Lemma quiet_noTag m : quietMap m -> forall f no key, keyTags m f no key = (f, no, key).
Proof.
  induction 1 as [|[k v] m Hk H IH]; intros f no key; cbn; [reflexivity|].
  cbn in Hk. rewrite (quiet_keyTag _ Hk). apply IH.
Qed.
Lemma quiet_mget k m : quietMap m -> ~ quietKey k -> mget k m = None.
Proof.
  intros H N. apply mget_None. intro I. apply in_map_iff in I. destruct I as [kv [<- I]].
  unfold quietMap in H. rewrite Forall_forall in H. apply N, H, I.
Qed.
Lemma notquiet_merge : ~ quietKey "<<" /\ ~ quietKey MERGEKEY.
Proof. split; intros [H _]; apply H; [exists ""|exists "<"]; reflexivity. Qed.
Lemma quiet_resolved ctrl m : quietMap m -> mapResolved ctrl m = true.
Proof.
  intro H. unfold mapResolved. rewrite !(quiet_mget _ m H) by apply notquiet_merge.
  rewrite andb_true_r. apply negb_true_iff. destruct ctrl; [|reflexivity]. cbn [andb].
  apply not_true_iff_false. rewrite existsb_exists. intros [kv [I E]].
  unfold quietMap in H. rewrite Forall_forall in H. rewrite (quiet_ctl _ (H _ I)) in E. discriminate.
Qed.
Lemma quiet_entry n m : val n = VMap m -> quietMap m -> entryMerge n = None.
Proof.
  intros E H. unfold entryMerge. rewrite E. destruct m as [|[k v] [|? ?]]; try reflexivity.
  inversion H as [|? ? Hk]; subst. cbn in Hk. apply quiet_neq in Hk. destruct Hk as [H1 H2].
  apply eqb_false_neq in H1, H2. rewrite H1, H2. reflexivity.
Qed.
Lemma quiet_scan reg m : quietMap m -> forall f, exists f', scanControl reg m None [] f = Some (None, [], f').
Proof.
  induction 1 as [|[k v] m Hk H IH]; intro f; cbn; [eauto|].
  unfold ctlKey. cbn in Hk. rewrite (quiet_ctl _ Hk). apply IH.
Qed.
Lemma quiet_getControl ctrl reg n m : val n = VMap m -> quietMap m -> getControl ctrl reg n [] = CtlNone.
Proof.
  intros E H. unfold getControl. rewrite E. destruct ctrl; [|reflexivity]. rewrite app_nil_r.
  destruct (quiet_scan reg m H []) as [f ->]. reflexivity.
Qed.

(** ** plain documents *)
Section Plain.
Variable K : string -> Prop.
Hypothesis KQ : forall k, K k -> quietKey k.
Variable interpol : bool.
Notation plain := (plainDoc K interpol).

Lemma K_quiet m : Forall (fun kv : string * node => K (fst kv)) m -> quietMap m.
Proof. unfold quietMap. intro H. eapply Forall_impl; [|exact H]. intros kv Hk. apply KQ, Hk. Qed.
Lemma plain_ann n : plain n -> ann n = emptyAnn \/ ann n = injectedAnn.
Proof. destruct 1; cbn; auto. Qed.
Lemma plain_tag n : plain n -> a_tag (ann n) = "" /\ a_undefined (ann n) = false /\ a_failed (ann n) = false.
Proof. intro H. destruct (plain_ann n H) as [-> | ->]; repeat split; reflexivity. Qed.
Lemma plain_noent n : plain n -> entryMerge n = None.
Proof.
  intro H. destruct (val n) as [| | | | | | |m| | |] eqn:E; try (unfold entryMerge; rewrite E; reflexivity).
  apply (quiet_entry n m E). inversion H; subst; cbn in E; try discriminate.
  - inversion H0; subst; discriminate.
  - inversion E; subst. apply K_quiet. assumption.
Qed.
Lemma plain_map n m : plain n -> val n = VMap m -> msorted m /\ Forall (fun kv => K (fst kv)) m /\ Forall (fun kv => plain (snd kv)) m.
Proof.
  intros H E. inversion H; subst; cbn in E; try discriminate; [inversion H0; subst; discriminate|].
  inversion E; subst. auto.
Qed.
Lemma plain_list n l : plain n -> val n = VList l -> Forall plain l.
Proof.
  intros H E. inversion H; subst; cbn in E; try discriminate; [inversion H0; subst; discriminate|].
  inversion E; subst. auto.
Qed.
Lemma plain_step ctrl s n c : plain n -> nextStep false ctrl s n = FOk c -> plain c.
Proof.
  intros H E. unfold nextStep in E. destruct (val n) eqn:Ev; try discriminate.
  - pose proof (plain_list _ _ H Ev) as Hl. rewrite Forall_forall in Hl.
    destruct (false || listResolved l); [|discriminate]. unfold stepList in E.
    destruct (stepIndex s) as [[i|]|] eqn:Es; [|discriminate|].
    + cbv zeta in E. destruct (Z.of_nat (length l) <=? _); [discriminate|].
      destruct (_ <? 0); [discriminate|].
      destruct (nth_error l _) eqn:En; [|discriminate]. inversion E; subst. apply Hl. eapply nth_error_In, En.
    + destruct (stepKey (a_keyName (ann n)) s) as [k v].
      assert (G : forall l', (forall x, In x l' -> plain x) -> findKeyed false ctrl l' k v = FOk c -> plain c).
      { induction l' as [|x l' IH]; intros Hp Hf; cbn in Hf; [discriminate|].
        destruct (keyField false ctrl k x) as [t|].
        - destruct (String.eqb t v); [inversion Hf; subst; apply Hp; left; reflexivity|].
          apply IH; [|exact Hf]. intros y Hy. apply Hp. right. exact Hy.
        - apply IH; [|exact Hf]. intros y Hy. apply Hp. right. exact Hy. }
      exact (G l Hl E).
  - pose proof (plain_map _ _ H Ev) as [_ [_ Hm]]. rewrite Forall_forall in Hm.
    destruct (false || mapResolved ctrl m); [|discriminate].
    destruct (mget s m) eqn:Em; [|discriminate]. inversion E; subst. apply mget_In in Em. apply (Hm _ Em).
Qed.
Lemma plain_find ctrl p : forall n c, plain n -> find false ctrl p n = FOk c -> plain c.
Proof.
  induction p as [|s p IH]; intros n c H E; cbn in E; [inversion E; subst; exact H|].
  destruct (nextStep false ctrl s n) as [d| |] eqn:En; try discriminate. eapply IH; [|exact E].
  eapply plain_step; eassumption.
Qed.
Lemma flags_injected : injectedAnn = mkAnn None false false false "" false false false noIssue "" 64%N.
Proof. reflexivity. Qed.
Lemma plain_implied n : plain n -> fImplied (nflags n) = false.
Proof. intro H. unfold nflags. destruct (plain_ann n H) as [-> | ->]; reflexivity. Qed.
Lemma plain_lookup ctrl stubs p c : Forall plain stubs -> lookupStubs ctrl stubs p = FOk c -> plain c.
Proof.
  induction 1 as [|s r Hs Hr IH]; cbn; [discriminate|]. intro E.
  destruct (find false ctrl p s) eqn:Ef; try discriminate; [|exact (IH E)].
  rewrite (plain_implied n (plain_find _ _ _ _ Hs Ef)) in E. inversion E; subst. eapply plain_find; eassumption.
Qed.
End Plain.

(** ** names of list elements *)
Definition nameOf (n : node) : option string :=
  match val n with
  | VMap m => match mget "name" m with
              | Some c => match val c with VStr s => Some s | _ => None end
              | None => None
              end
  | _ => None
  end.
Fixpoint uniq (l : list node) (seen : list string) : bool :=
  match l with
  | [] => true
  | v :: r => match nameOf v with
              | Some x => negb (existsb (String.eqb x) seen) && uniq r (x :: seen)
              | None => false
              end
  end.
Definition stepF (u : bool) (i : Z) (v : node) : string :=
  match (if u then nameOf v else None) with
  | Some x => ("name:" +++ x)%string
  | None => idx i
  end.

Fixpoint depth (n : node) : nat :=
  match n with
  | mkNode v _ _ _ _ =>
      match v with
      | VList l => S ((fix go (l : list node) := match l with [] => 0%nat | x :: r => Nat.max (depth x) (go r) end) l)
      | VMap m => S ((fix go (m : list (string * node)) := match m with [] => 0%nat | (_, x) :: r => Nat.max (depth x) (go r) end) m)
      | _ => 1%nat
      end
  end.
Lemma depth_list l a s t r x : In x l -> (depth x < depth (mkNode (VList l) a s t r))%nat.
Proof.
  cbn [depth]. intro H. apply -> Nat.lt_succ_r.
  induction l as [|y l IH]; [destruct H|]. destruct H as [->|H]; [lia|]. specialize (IH H). lia.
Qed.
Lemma depth_map m a s t r k x : In (k, x) m -> (depth x < depth (mkNode (VMap m) a s t r))%nat.
Proof.
  cbn [depth]. intro H. apply -> Nat.lt_succ_r.
  induction m as [|[k' y] l IH]; [destruct H|]. destruct H as [E|H]; [inversion E; subst; lia|]. specialize (IH H). lia.
Qed.
Lemma depth_pos n : (1 <= depth n)%nat.
Proof. destruct n as [v]. destruct v; cbn [depth]; lia. Qed.

Section Pass.
Variable ctrl : bool.
Variable stubs : list node.
Definition lk (p : list string) : fres := lookupStubs ctrl stubs p.
(** the result of one round of the engine on a plain document *)
Fixpoint passN (so : bool) (p : list string) (n : node) {struct n} : node :=
  match n with
  | mkNode v a s t r =>
      match v with
      | VMap m => mkNode (VMap (map (fun kv => match kv with (k, c) => (k, passN true (p ++ [k]) c) end) m)) a s t r
      | VList l =>
          let u := uniq l [] in
          mkNode (VList ((fix go (l : list node) (i : Z) : list node :=
                            match l with
                            | [] => []
                            | x :: q => passN false (p ++ [stepF u i x]) x :: go q (i + 1)
                            end) l 0))
                 (match lk p with FOk _ => aAddFlags FLAG_INJECTED a | _ => a end) s t r
      | _ => if so then match lk p with FOk ov => ov | _ => n end else n
      end
  end.
Fixpoint passL (u : bool) (p : list string) (l : list node) (i : Z) : list node :=
  match l with
  | [] => []
  | x :: q => passN false (p ++ [stepF u i x]) x :: passL u p q (i + 1)
  end.
Definition passM (p : list string) (m : smap node) : smap node :=
  map (fun kv => (fst kv, passN true (p ++ [fst kv]) (snd kv))) m.
Lemma pass_list so p l a s t r : passN so p (mkNode (VList l) a s t r) =
  mkNode (VList (passL (uniq l []) p l 0)) (match lk p with FOk _ => aAddFlags FLAG_INJECTED a | _ => a end) s t r.
Proof.
  cbn [passN]. do 2 f_equal. generalize (uniq l []) as u. generalize 0 as i.
  induction l as [|x q IH]; intros i u; cbn; [reflexivity|]. f_equal. apply IH.
Qed.
Lemma pass_map so p m a s t r : passN so p (mkNode (VMap m) a s t r) = mkNode (VMap (passM p m)) a s t r.
Proof.
  cbn [passN]. do 2 f_equal. unfold passM. apply map_ext. intros [k c]. reflexivity.
Qed.
Definition isLeaf (v : value) : Prop := (forall l, v <> VList l) /\ (forall m, v <> VMap m).
Lemma pass_leaf so p n : isLeaf (val n) -> passN so p n = if so then match lk p with FOk ov => ov | _ => n end else n.
Proof. destruct n as [v]. intros [H1 H2]. cbn in *. destruct v; try reflexivity; [edestruct H1|edestruct H2]; reflexivity. Qed.
End Pass.
