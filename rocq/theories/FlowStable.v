(** Stability of merged plain documents: what the first round produces is changed
    by the second one in flags only (C02). *)
From Coq Require Import Lia Floats.SpecFloat.
From Verif Require Import Core CoreFacts Str StrFacts DecSpec Interp Find FindFacts EquivFacts PropInterp
  Cleanup Unresolved PropUnresolved DeepEq DeepEqFacts Env Flow FlowSpec FlowFacts FlowPass FlowMerge.

Section Stable.
Variable interpol ctrl : bool.
Notation plain := (plainDoc ordinaryKey interpol).
Lemma ordinary_quiet k : ordinaryKey k -> quietKey k.
Proof. intros [H _]. exact H. Qed.
Variable stubs : list node.
Hypothesis SP : Forall plain stubs.
Hypothesis SF : Forall fitsN stubs.
Notation Lk := (lk ctrl stubs).
Notation pass := (passN ctrl stubs).

(** lookups in plain stubs do not crash *)
Definition okStep (s : string) : Prop := stepIndex s = None \/ exists i, stepIndex s = Some (Some i) /\ 0 <= i.
Definition okP (p : list string) : Prop := Forall okStep p.
Lemma okP_app p s : okP p -> okStep s -> okP (p ++ [s]).
Proof. intros H1 H2. apply Forall_app. auto. Qed.
Lemma notBracket k : ~ startsWith "[" k -> stepIndex k = None.
Proof.
  intro H. destruct k as [|c r]; [reflexivity|].
  destruct (Ascii.eqb_spec c "[") as [->|N]; [exfalso; apply H; exists r; reflexivity|].
  unfold stepIndex. destruct c as [[] [] [] [] [] [] [] []]; try reflexivity. congruence.
Qed.
Lemma ok_ordinary k : ordinaryKey k -> okStep k.
Proof. intros [_ [H _]]. left. apply notBracket, H. Qed.
Lemma ok_index i : 0 <= i <= max64 -> okStep (idx i).
Proof. intro H. right. exists i. split; [|lia]. apply stepIndex_idx. unfold in64, min64, max64 in *. lia. Qed.
Lemma ok_named x : okStep ("name:" +++ x).
Proof. left. reflexivity. Qed.
Lemma next_nopanic s n : okStep s -> nextStep false ctrl s n <> FPanic.
Proof.
  intro H. unfold nextStep. destruct (val n); try discriminate.
  - destruct (false || listResolved l); [|discriminate]. unfold stepList. destruct H as [-> | [i [-> Hi]]].
    + destruct (stepKey (a_keyName (ann n)) s). apply findKeyed_nopanic.
    + cbv zeta. replace (i <? 0) with false by (symmetry; apply Z.ltb_ge; exact Hi).
      destruct (Z.of_nat (length l) <=? i); [discriminate|].
      replace (i <? 0) with false by (symmetry; apply Z.ltb_ge; exact Hi). destruct (nth_error l (Z.to_nat i)); discriminate.
  - destruct (false || mapResolved ctrl m); [|discriminate]. destruct (mget s m); discriminate.
Qed.
Lemma find_nopanic p : okP p -> forall n, find false ctrl p n <> FPanic.
Proof.
  induction 1 as [|s p Hs Hp IH]; intro n; cbn [find]; [discriminate|].
  pose proof (next_nopanic s n Hs). destruct (nextStep false ctrl s n); [apply IH|discriminate|congruence].
Qed.
Lemma lk_nopanic p : okP p -> Lk p <> FPanic.
Proof.
  intro H. unfold lk. induction stubs as [|s r IH]; cbn [lookupStubs]; [discriminate|].
  inversion SP; subst. inversion SF; subst. pose proof (find_nopanic p H s).
  destruct (find false ctrl p s); [|apply IH; assumption|congruence].
  destruct (fImplied (nflags n)); [apply IH; assumption|discriminate].
Qed.

(** the first defining stub *)
Lemma lk_ok p v : Lk p = FOk v <-> (okP p -> definedBy ctrl stubs p v) /\ Lk p = FOk v.
Proof.
  split; [|tauto]. intro H. split; [|exact H]. intro O. unfold lk in H. clear SF. 
  induction stubs as [|s r IH]; [discriminate|]. cbn [lookupStubs] in H. inversion SP; subst.
  destruct (find false ctrl p s) as [w| |] eqn:E; [| |discriminate].
  - rewrite (plain_implied ordinaryKey interpol w (plain_find _ _ _ _ _ _ H2 E)) in H. inversion H; subst.
    exists [], s, r. repeat split; auto.
  - destruct (IH H3 H) as [b [t [a [-> [F1 F2]]]]]. exists (s :: b), t, a. repeat split; auto.
    intros x w [->|I]; [rewrite E; discriminate|apply F2, I].
Qed.
Lemma lk_defined p v : okP p -> (Lk p = FOk v <-> definedBy ctrl stubs p v).
Proof.
  intro O. split; [intro H; apply lk_ok in H; apply H, O|].
  intros [b [s [a [E [F1 F2]]]]]. unfold lk. clear SF. revert E SP. revert stubs. 
  induction b as [|x b IH]; intros st E SP'; rewrite E in *; cbn [app lookupStubs] in *; inversion SP' as [|? ? Px Pr]; subst.
  - rewrite F1, (plain_implied ordinaryKey interpol v (plain_find _ _ _ _ _ _ Px F1)). reflexivity.
  - pose proof (find_nopanic p O x) as NP. destruct (find false ctrl p x) as [w| |] eqn:Ex; [| |congruence].
    + exfalso. exact (F2 x w (or_introl eq_refl) Ex).
    + apply IH; [|reflexivity|exact Pr]. intros y w I. apply F2. right. exact I.
Qed.
Lemma lk_none p : okP p -> (Lk p = FNo <-> undefined ctrl stubs p).
Proof.
  intro O. unfold lk, undefined. clear SF. induction stubs as [|s r IH]; cbn [lookupStubs].
  - split; [intros _ s v []|reflexivity].
  - inversion SP as [|? ? Px Pr]; subst. pose proof (find_nopanic p O s) as NP.
    destruct (find false ctrl p s) as [w| |] eqn:Ex; [| |congruence].
    + rewrite (plain_implied ordinaryKey interpol w (plain_find _ _ _ _ _ _ Px Ex)). split; [discriminate|].
      intro H. exfalso. exact (H s w (or_introl eq_refl) Ex).
    + rewrite (IH Pr). split.
      * intros H t v [->|I]; [rewrite Ex; discriminate|apply H, I].
      * intros H t v I. apply H. right. exact I.
Qed.

(** a step below a found node *)
Lemma lk_step p s n c : okP p -> okStep s -> Lk p = FOk n -> nextStep false ctrl s n = FOk c -> Lk (p ++ [s]) = FOk c.
Proof.
  intros O Os H E. apply lk_defined in H; [|exact O]. apply lk_defined; [apply okP_app; assumption|].
  destruct H as [b [t [a [-> [F1 F2]]]]]. exists b, t, a. split; [reflexivity|]. split.
  - rewrite find_app, F1. cbn. rewrite E. reflexivity.
  - intros x w I. rewrite find_app. pose proof (find_nopanic p O x) as NP.
    destruct (find false ctrl p x) as [y| |] eqn:Ex; [exfalso; exact (F2 x y I Ex)|discriminate|discriminate].
Qed.

(** ** names *)
Lemma find_split p s n c : find false ctrl (p ++ [s]) n = FOk c ->
  exists d, find false ctrl p n = FOk d /\ nextStep false ctrl s d = FOk c.
Proof.
  rewrite find_app. destruct (find false ctrl p n) as [d| |]; cbn; try discriminate. intro H. exists d. split; [reflexivity|].
  destruct (nextStep false ctrl s d); congruence.
Qed.
Lemma stepKey_named kn x : stepKey kn ("name:" +++ x) = ("name", x).
Proof. reflexivity. Qed.
Lemma findKeyed_in l k v c : findKeyed false ctrl l k v = FOk c -> In c l /\ keyField false ctrl k c = Some v.
Proof.
  induction l as [|x l IH]; cbn [findKeyed]; [discriminate|].
  destruct (keyField false ctrl k x) as [t|] eqn:E.
  - destruct (String.eqb_spec t v) as [->|N]; intro H.
    + inversion H; subst. split; [left; reflexivity|exact E].
    + destruct (IH H). split; [right|]; assumption.
  - intro H. destruct (IH H). split; [right|]; assumption.
Qed.
Lemma keyField_name n : plain n -> keyField false ctrl "name" n = nameOf n.
Proof.
  intro H. unfold keyField, nameOf. destruct (val n) eqn:E; try reflexivity.
  pose proof (plain_map _ _ n m H E) as [_ [Hk _]].
  rewrite (quiet_resolved ctrl m (K_quiet _ ordinary_quiet m Hk)). reflexivity.
Qed.
(** an element addressed by its name has this name *)
Lemma named_step x n c : plain n -> nextStep false ctrl ("name:" +++ x) n = FOk c -> nameOf c = Some x.
Proof.
  intros P H. pose proof (plain_step _ _ _ _ _ _ P H) as Pc. unfold nextStep in H. destruct (val n) eqn:E; try discriminate.
  - destruct (false || listResolved l); [|discriminate]. unfold stepList in H.
    change (stepIndex ("name:" +++ x)) with (@None (option Z)) in H. rewrite stepKey_named in H.
    apply findKeyed_in in H. destruct H as [_ H]. rewrite <- (keyField_name c Pc). exact H.
  - destruct (false || mapResolved ctrl m); [|discriminate].
    destruct (mget ("name:" +++ x) m) as [d|] eqn:Em; [|discriminate]. exfalso.
    pose proof (plain_map _ _ n m P E) as [_ [Hk _]]. apply mget_In in Em. rewrite Forall_forall in Hk.
    destruct (Hk _ Em) as [_ [_ N]]. apply N. exists x. reflexivity.
Qed.
Lemma name_step n c : plain n -> nextStep false ctrl "name" n = FOk c -> forall x, nameOf n = Some x -> val c = VStr x.
Proof.
  intros P H x Hx. unfold nameOf in Hx. destruct (val n) eqn:E; try discriminate. unfold nextStep in H. rewrite E in H.
  destruct (false || mapResolved ctrl m); [|discriminate]. destruct (mget "name" m) as [d|]; [|discriminate].
  inversion H; subst. destruct (val c); congruence.
Qed.
Lemma ok_nameStep : okStep "name".
Proof. left. reflexivity. Qed.
Lemma lk_name p x ov : okP p -> Lk ((p ++ [("name:" +++ x)%string]) ++ ["name"]) = FOk ov -> val ov = VStr x.
Proof.
  intros O H. apply lk_defined in H.
  - destruct H as [b [t [a [E [F1 _]]]]]. assert (Pt : plain t).
    { rewrite Forall_forall in SP. apply SP. rewrite E. apply in_or_app. right. left. reflexivity. }
    apply find_split in F1. destruct F1 as [d [F1 F2]]. pose proof (plain_find _ _ _ _ _ _ Pt F1) as Pd.
    apply find_split in F1. destruct F1 as [e [F1 F3]]. pose proof (plain_find _ _ _ _ _ _ Pt F1) as Pe.
    eapply name_step; [exact Pd|exact F2|]. eapply named_step; [exact Pe|exact F3].
  - apply okP_app; [apply okP_app; [exact O|apply ok_named]|apply ok_nameStep].
Qed.

(** ** stable documents *)
Fixpoint stable (so : bool) (p : list string) (n : node) {struct n} : Prop :=
  match n with
  | mkNode v a s t r =>
      match v with
      | VMap m => (fix go (m : list (string * node)) : Prop :=
                     match m with [] => True | (k, c) :: q => stable true (p ++ [k]) c /\ go q end) m
      | VList l => let u := uniq l [] in
                   (fix go (l : list node) (i : Z) : Prop :=
                      match l with [] => True | x :: q => stable false (p ++ [stepF u i x]) x /\ go q (i + 1) end) l 0
      | _ => so = true -> forall ov, Lk p = FOk ov -> ov = n
      end
  end.
Fixpoint stableL (u : bool) (p : list string) (l : list node) (i : Z) : Prop :=
  match l with [] => True | x :: q => stable false (p ++ [stepF u i x]) x /\ stableL u p q (i + 1) end.
Lemma stable_list so p l a s t r : stable so p (mkNode (VList l) a s t r) <-> stableL (uniq l []) p l 0.
Proof.
  cbn [stable]. generalize (uniq l []) as u. generalize 0 as i.
  induction l as [|x q IH]; intros i u; cbn; [tauto|]. rewrite IH. tauto.
Qed.
Lemma stable_map so p m a s t r : stable so p (mkNode (VMap m) a s t r) <->
  Forall (fun kv => stable true (p ++ [fst kv]) (snd kv)) m.
Proof.
  cbn [stable]. induction m as [|[k c] q IH].
  - split; constructor.
  - rewrite IH. rewrite Forall_cons_iff. cbn. tauto.
Qed.
Lemma stable_leaf so p n : isLeaf (val n) -> (stable so p n <-> (so = true -> forall ov, Lk p = FOk ov -> ov = n)).
Proof. destruct n as [v]. intros [H1 H2]. cbn in *. destruct v; try tauto; [edestruct H1|edestruct H2]; reflexivity. Qed.

Lemma leaf_dec v : isLeaf v \/ (exists l, v = VList l) \/ (exists m, v = VMap m).
Proof. destruct v; eauto; left; split; discriminate. Qed.

(** the names of the elements decide the steps *)
Lemma uniq_names l : forall l' seen, map nameOf l = map nameOf l' -> uniq l seen = uniq l' seen.
Proof.
  induction l as [|x l IH]; intros [|y l'] seen H; try discriminate; [reflexivity|].
  cbn in H. inversion H as [[H1 H2]]. cbn. rewrite H1. destruct (nameOf y); [|reflexivity]. rewrite (IH l' _ H2). reflexivity.
Qed.
Lemma stepF_name u i x y : nameOf x = nameOf y -> stepF u i x = stepF u i y.
Proof. intro H. unfold stepF. rewrite H. reflexivity. Qed.

Lemma nameOf_pass so p n : nameOf (pass so p n) =
  match val n with
  | VMap m => match mget "name" m with
              | Some c => match val (pass true (p ++ ["name"]) c) with VStr s => Some s | _ => None end
              | None => None
              end
  | VList l => None
  | _ => if so then match Lk p with FOk ov => nameOf ov | _ => None end else None
  end.
Proof.
  destruct n as [v a s t r]. cbn [val]. destruct v as [| | | | | |l|m| | |];
    try (rewrite pass_leaf by (split; intros; cbn; discriminate); destruct so; [|reflexivity]; destruct (Lk p); reflexivity).
  - rewrite pass_list. reflexivity.
  - rewrite pass_map. unfold nameOf. cbn [val]. unfold passM.
    assert (E : mget "name" (map (fun kv : string * node => (fst kv, pass true (p ++ [fst kv]) (snd kv))) m) =
                option_map (pass true (p ++ ["name"])) (mget "name" m)).
    { induction m as [|[k c] m IH]; [reflexivity|]. cbn [map mget fst snd].
      destruct (String.eqb_spec "name" k) as [<-|]; [reflexivity|exact IH]. }
    rewrite E. destruct (mget "name" m); reflexivity.
Qed.

(** values that are no texts stay no texts when stable *)
Lemma stable_str p c : stable true p c -> forall s, val (pass true p c) = VStr s <-> val c = VStr s.
Proof.
  intros H s. destruct (leaf_dec (val c)) as [L|[[l E]|[m E]]].
  - rewrite pass_leaf by exact L. pose proof (proj1 (stable_leaf true p c L) H eq_refl) as H0. clear H. rename H0 into H.
    destruct (Lk p) as [ov| |]; [|tauto|tauto]. rewrite (H ov eq_refl). tauto.
  - destruct c. cbn in E. subst v. rewrite pass_list. cbn. split; discriminate.
  - destruct c. cbn in E. subst v. rewrite pass_map. cbn. split; discriminate.
Qed.
Lemma stable_name p n : stable false p n -> nameOf (pass false p n) = nameOf n.
Proof.
  intro H. rewrite nameOf_pass. unfold nameOf. destruct (val n) eqn:E; try reflexivity.
  destruct (mget "name" m) as [c|] eqn:Em; [|reflexivity].
  destruct n as [v]. cbn in E. subst v. apply stable_map in H. rewrite Forall_forall in H.
  apply mget_In in Em. specialize (H _ Em). cbn [fst snd] in H. pose proof (stable_str _ _ H) as G.
  destruct (val c) eqn:Ec; destruct (val (pass true (p ++ ["name"]) c)) eqn:Ed; try reflexivity;
    try (specialize (proj1 (G _) eq_refl); discriminate); try (specialize (proj2 (G _) eq_refl); discriminate).
  pose proof (proj1 (G _) eq_refl). congruence.
Qed.

Lemma addInj_idem a : aAddFlags FLAG_INJECTED (aAddFlags FLAG_INJECTED a) = aAddFlags FLAG_INJECTED a.
Proof. destruct a. unfold aAddFlags. cbn. rewrite <- N.lor_assoc. reflexivity. Qed.

Lemma passL_names u p : forall l i, stableL u p l i -> map nameOf (passL ctrl stubs u p l i) = map nameOf l.
Proof.
  induction l as [|x l IH]; intros i H; cbn in *; [reflexivity|]. destruct H as [H1 H2].
  rewrite (stable_name _ _ H1), (IH _ H2). reflexivity.
Qed.
Lemma stable_pass n : forall so p, stable so p n -> data (pass so p n) = data n /\ pass so p (pass so p n) = pass so p n.
Proof.
  induction n as [v a s t r IH] using node_ind'. intros so p H.
  destruct (leaf_dec v) as [L|[[l ->]|[m ->]]].
  - assert (E : pass so p (mkNode v a s t r) = mkNode v a s t r).
    { rewrite pass_leaf by exact L. destruct so; [|reflexivity].
      pose proof (proj1 (stable_leaf true p (mkNode v a s t r) L) H eq_refl) as G. destruct (Lk p); [|reflexivity|reflexivity]. apply G. reflexivity. }
    rewrite !E. auto.
  - apply stable_list in H. rewrite pass_list. rewrite pass_list.
    assert (Eu : uniq (passL ctrl stubs (uniq l []) p l 0) [] = uniq l [])
      by (apply uniq_names, passL_names, H). rewrite Eu. cbn in IH.
    assert (G : forall u i, stableL u p l i ->
       map data (passL ctrl stubs u p l i) = map data l /\
       passL ctrl stubs u p (passL ctrl stubs u p l i) i = passL ctrl stubs u p l i).
    { clear H Eu. induction l as [|x l IHl]; intros u i H; [split; reflexivity|].
      inversion IH as [|? ? Hx Hl]; subst. destruct H as [H1 H2]. cbn [passL map].
      rewrite (stepF_name u i _ x (stable_name _ _ H1)).
      destruct (Hx _ _ H1) as [D1 D2]. destruct (IHl Hl u (i + 1) H2) as [E1 E2]. rewrite D1, D2, E1, E2. split; reflexivity. }
    destruct (G _ _ H) as [G1 G2]. rewrite G2. split.
    + cbn [data]. rewrite G1. reflexivity.
    + f_equal. destruct (Lk p); [apply addInj_idem|reflexivity|reflexivity].
  - apply stable_map in H. rewrite !pass_map. cbn in IH.
    assert (G : map (fun kv : string * node => match kv with (k, c) => (k, data c) end) (passM ctrl stubs p m) =
                map (fun kv : string * node => match kv with (k, c) => (k, data c) end) m /\
                passM ctrl stubs p (passM ctrl stubs p m) = passM ctrl stubs p m).
    { unfold passM. induction m as [|[k c] m IHm]; [split; reflexivity|].
      inversion IH as [|? ? Hx Hl]; subst. inversion H as [|? ? H1 H2]; subst. cbn [map fst snd] in *.
      destruct (Hx _ _ H1) as [D1 D2]. destruct (IHm Hl H2) as [E1 E2]. rewrite D1, D2, E1, E2. split; reflexivity. }
    destruct G as [G1 G2]. rewrite G2. split; [cbn [data]; rewrite G1; reflexivity|reflexivity].
Qed.

(** ** steps of lists *)
Lemma uniq_app l1 e l2 x : forall seen, uniq (l1 ++ e :: l2) seen = true -> nameOf e = Some x ->
  ~ In x seen /\ forall y, In y l1 -> nameOf y <> Some x.
Proof.
  induction l1 as [|y l1 IH]; intros seen H E; cbn in H.
  - rewrite E in H. apply andb_true_iff in H. destruct H as [H _]. split; [|intros ? []].
    intro I. apply negb_true_iff in H. rewrite <- not_true_iff_false, existsb_exists in H. apply H. exists x. split; [exact I|apply String.eqb_refl].
  - destruct (nameOf y) as [z|] eqn:Ey; [|discriminate]. apply andb_true_iff in H. destruct H as [H1 H2].
    destruct (IH _ H2 E) as [N1 N2]. split; [intro I; apply N1; right; exact I|].
    intros w [->|I]; [|apply N2, I]. rewrite Ey. intro Ez. inversion Ez; subst. apply N1. left. reflexivity.
Qed.
Lemma uniq_named l : forall seen x, uniq l seen = true -> In x l -> exists y, nameOf x = Some y.
Proof.
  induction l as [|z l IH]; intros seen x H I; [destruct I|]. cbn in H. destruct (nameOf z) as [y|] eqn:E; [|discriminate].
  apply andb_true_iff in H. destruct H as [_ H]. destruct I as [->|I]; [eauto|]. eapply IH; eassumption.
Qed.
Lemma find_first l1 e l2 x : Forall plain (l1 ++ e :: l2) -> nameOf e = Some x -> (forall y, In y l1 -> nameOf y <> Some x) ->
  findKeyed false ctrl (l1 ++ e :: l2) "name" x = FOk e.
Proof.
  induction l1 as [|y l1 IH]; intros P E N; cbn [app findKeyed]; inversion P as [|? ? Py Pl]; subst; rewrite (keyField_name _ Py).
  - rewrite E, String.eqb_refl. reflexivity.
  - assert (G : findKeyed false ctrl (l1 ++ e :: l2) "name" x = FOk e)
      by (apply IH; [exact Pl|exact E|intros z I; apply N; right; exact I]).
    destruct (nameOf y) as [z|] eqn:Ey; [|exact G].
    destruct (String.eqb_spec z x) as [->|]; [|exact G]. exfalso. apply (N y (or_introl eq_refl)). exact Ey.
Qed.
Lemma plain_listResolved l : Forall plain l -> listResolved l = true.
Proof.
  intro H. unfold listResolved. apply forallb_forall. intros x I. rewrite Forall_forall in H.
  rewrite (plain_noent _ ordinary_quiet interpol x (H x I)). reflexivity.
Qed.
Lemma step_elem n l1 e l2 : plain n -> fitsN n -> val n = VList (l1 ++ e :: l2) ->
  nextStep false ctrl (stepF (uniq (l1 ++ e :: l2) []) (Z.of_nat (length l1)) e) n = FOk e.
Proof.
  intros P F E. pose proof (plain_list _ _ n _ P E) as Pl. unfold nextStep. rewrite E, (plain_listResolved _ Pl). cbn [orb].
  assert (Fl : Z.of_nat (length (l1 ++ e :: l2)) <= max64).
  { destruct n as [v]. cbn in E. subst v. apply fits_list in F. apply F. }
  rewrite app_length in Fl. cbn [length] in Fl.
  unfold stepF. destruct (uniq (l1 ++ e :: l2) []) eqn:U.
  - destruct (uniq_named _ _ e U) as [x Hx]; [apply in_or_app; right; left; reflexivity|]. rewrite Hx.
    unfold stepList. change (stepIndex ("name:" +++ x)) with (@None (option Z)). rewrite stepKey_named.
    apply find_first; [exact Pl|exact Hx|]. apply (uniq_app _ _ _ _ _ U Hx).
  - unfold stepList. rewrite stepIndex_idx by (unfold in64, min64, max64 in *; lia). cbv zeta.
    replace (Z.of_nat (length l1) <? 0) with false by (symmetry; apply Z.ltb_ge; lia).
    rewrite app_length. cbn [length].
    replace (Z.of_nat (length l1 + S (length l2)) <=? Z.of_nat (length l1)) with false by (symmetry; apply Z.leb_gt; lia).
    replace (Z.of_nat (length l1) <? 0) with false by (symmetry; apply Z.ltb_ge; lia).
    rewrite Nat2Z.id. rewrite nth_error_app2 by lia. rewrite Nat.sub_diag. reflexivity.
Qed.
Lemma ok_stepF u i x : 0 <= i <= max64 -> okStep (stepF u i x).
Proof. intro H. unfold stepF. destruct (if u then nameOf x else None); [apply ok_named|apply ok_index, H]. Qed.

(** a node that stands at a path of the stubs is stable there *)
Lemma stable_self n : forall so p, plain n -> fitsN n -> okP p -> Lk p = FOk n -> stable so p n.
Proof.
  induction n as [v a s t r IH] using node_ind'. intros so p P F O H.
  destruct (leaf_dec v) as [L|[[l ->]|[m ->]]].
  - apply (stable_leaf so p (mkNode v a s t r) L). intros _ ov E. congruence.
  - apply stable_list. cbn in IH.
    pose proof (plain_list _ _ _ l P eq_refl) as Pl. pose proof (proj1 (fits_list _ _ _ _ _) F) as [Fl Ff].
    assert (G : forall l2 l1, l = l1 ++ l2 -> stableL (uniq l []) p l2 (Z.of_nat (length l1))).
    { induction l2 as [|e l2 IHl]; intros l1 E; [exact I|]. cbn [stableL].
      assert (Ie : In e l) by (rewrite E; apply in_or_app; right; left; reflexivity).
      assert (Ln : (length l1 < length l)%nat) by (rewrite E, app_length; cbn; lia).
      split.
      - rewrite Forall_forall in IH, Pl, Ff. apply (IH e Ie).
        + apply Pl, Ie.
        + apply Ff, Ie.
        + apply okP_app; [exact O|apply ok_stepF; lia].
        + apply (lk_step p _ (mkNode (VList l) a s t r)); [exact O|apply ok_stepF; lia|exact H|].
          rewrite E. apply step_elem; rewrite <- E; [exact P|exact F|reflexivity].
      - specialize (IHl (l1 ++ [e])). rewrite app_length in IHl. cbn [length] in IHl.
        replace (Z.of_nat (length l1) + 1) with (Z.of_nat (length l1 + 1)) by lia. apply IHl.
        rewrite <- app_assoc. exact E. }
    apply (G l []). reflexivity.
  - apply stable_map. cbn in IH. pose proof (plain_map _ _ _ m P eq_refl) as [Ps [Pk Pm]].
    pose proof (proj1 (fits_map _ _ _ _ _) F) as Ff. rewrite Forall_forall in IH, Pk, Pm, Ff. apply Forall_forall. intros [k c] I. cbn [fst snd].
    apply (IH _ I); [apply (Pm _ I)|apply (Ff _ I)| |].
    + apply okP_app; [exact O|apply ok_ordinary, (Pk _ I)].
    + apply (lk_step p k (mkNode (VMap m) a s t r)); [exact O|apply ok_ordinary, (Pk _ I)|exact H|].
      unfold nextStep. cbn [val]. rewrite (quiet_resolved ctrl m).
      * cbn [orb]. rewrite (In_mget k c m (msorted_NoDup _ Ps) I). reflexivity.
      * apply (K_quiet ordinaryKey ordinary_quiet). rewrite Forall_forall. exact Pk.
Qed.

(** ** named lists *)
Lemma nameOf_named n x : plain n -> (nameOf n = Some x <-> named n x).
Proof.
  intro P. unfold nameOf, named. split.
  - destruct (val n) eqn:E; try discriminate. destruct (mget "name" m) as [c|] eqn:Em; [|discriminate].
    destruct (val c) eqn:Ec; try discriminate. intro H. inversion H; subst. exists m, c. repeat split; auto. apply mget_In, Em.
  - intros [m [c [E [I Ec]]]]. rewrite E. pose proof (plain_map _ _ n m P E) as [Ps _].
    rewrite (In_mget _ _ _ (msorted_NoDup _ Ps) I), Ec. reflexivity.
Qed.
Lemma uniq_spec l : Forall plain l -> forall seen,
  uniq l seen = true <-> exists names, Forall2 named l names /\ NoDup names /\ (forall x, In x names -> ~ In x seen).
Proof.
  induction 1 as [|e l Pe Pl IH]; intro seen; cbn [uniq].
  - split; [intros _; exists []; repeat split; [constructor|constructor|intros ? []]|reflexivity].
  - destruct (nameOf e) as [x|] eqn:Ee.
    + rewrite andb_true_iff, IH. split.
      * intros [H [names [F [N D]]]]. exists (x :: names). repeat split.
        -- constructor; [apply nameOf_named; assumption|exact F].
        -- constructor; [|exact N]. intro I. apply (D x I). left. reflexivity.
        -- intros y [<-|I] Iy; [|apply (D y I); right; exact Iy].
           apply negb_true_iff in H. rewrite <- not_true_iff_false, existsb_exists in H. apply H.
           exists x. split; [exact Iy|apply String.eqb_refl].
      * intros [names [F [N D]]]. inversion F as [|? y ? names' F1 F2]; subst.
        apply nameOf_named in F1; [|exact Pe]. rewrite Ee in F1. inversion F1; subst y.
        inversion N as [|? ? N1 N2]; subst. split.
        -- apply negb_true_iff. rewrite <- not_true_iff_false, existsb_exists. intros [y [Iy Ey]].
           apply String.eqb_eq in Ey. subst y. apply (D x); [left; reflexivity|exact Iy].
        -- exists names'. repeat split; try assumption. intros y I [->|Iy]; [contradiction|].
           apply (D y); [right; exact I|exact Iy].
    + split; [discriminate|]. intros [names [F _]]. inversion F; subst. apply nameOf_named in H1; [|exact Pe]. congruence.
Qed.
Lemma uniq_spec0 l : Forall plain l -> (uniq l [] = true <-> exists names, Forall2 named l names /\ NoDup names).
Proof.
  intro H. rewrite (uniq_spec l H). split; intros [names G]; exists names; [|split; [apply G|split; [apply G|intros ? ? []]]].
  split; apply G.
Qed.
Lemma nameless_name n : nameless n -> nameOf n = None.
Proof.
  intro H. unfold nameOf. destruct (val n) eqn:E; try reflexivity. destruct (mget "name" m) as [c|] eqn:Em; [|reflexivity].
  exfalso. apply (H m c E). apply mget_In, Em.
Qed.
Lemma uniq_none l x : In x l -> nameOf x = None -> forall seen, uniq l seen = false.
Proof.
  intros I E seen. destruct (uniq l seen) eqn:U; [|reflexivity].
  destruct (uniq_named l seen x U I) as [y Hy]. congruence.
Qed.
Lemma nameless_pass p n : nameless n -> nameOf (pass false p n) = None.
Proof.
  intro H. rewrite nameOf_pass. destruct (val n) eqn:E; try reflexivity.
  destruct (mget "name" m) as [c|] eqn:Em; [|reflexivity]. exfalso. apply (H m c E). apply mget_In, Em.
Qed.
Lemma named_pass p n x : okP p -> nameOf n = Some x -> nameOf (pass false (p ++ [("name:" +++ x)%string]) n) = Some x.
Proof.
  intros O H. rewrite nameOf_pass. unfold nameOf in H. destruct (val n); try discriminate.
  destruct (mget "name" m) as [c|]; [|discriminate]. destruct (val c) eqn:Ec; try discriminate. inversion H; subst s.
  rewrite pass_leaf by (rewrite Ec; split; discriminate).
  destruct (Lk ((p ++ [("name:" +++ x)%string]) ++ ["name"])) as [ov| |] eqn:El; rewrite ?Ec; try reflexivity.
  rewrite (lk_name p x ov O El). reflexivity.
Qed.

Lemma passL_In u p e : forall l i, In e l -> exists j, In (pass false (p ++ [stepF u j e]) e) (passL ctrl stubs u p l i).
Proof.
  induction l as [|x l IH]; intros i I; [destruct I|]. destruct I as [->|I].
  - exists i. left. reflexivity.
  - destruct (IH (i + 1) I) as [j G]. exists j. right. exact G.
Qed.

Lemma fits_find p n c : fitsN n -> find false ctrl p n = FOk c -> fitsN c.
Proof.
  revert n. induction p as [|s p IH]; intros n F H; cbn in H; [inversion H; subst; exact F|].
  destruct (nextStep false ctrl s n) as [d| |] eqn:E; try discriminate. apply (IH d); [|exact H]. clear IH H.
  unfold nextStep in E. destruct n as [v a s0 t r]. cbn [val] in E. destruct v; try discriminate.
  - apply fits_list in F. destruct F as [_ F]. rewrite Forall_forall in F.
    destruct (false || listResolved l); [|discriminate]. unfold stepList in E. destruct (stepIndex s) as [[i|]|]; [|discriminate|].
    + cbv zeta in E. destruct (_ <=? _); [discriminate|]. destruct (_ <? 0); [discriminate|].
      destruct (nth_error l _) eqn:En; [|discriminate]. inversion E; subst. apply F. eapply nth_error_In, En.
    + destruct (stepKey _ s) as [k x]. apply findKeyed_in in E. apply F, E.
  - apply fits_map in F. rewrite Forall_forall in F. destruct (false || mapResolved ctrl m); [|discriminate].
    destruct (mget s m) eqn:Em; [|discriminate]. inversion E; subst. apply mget_In in Em. apply (F _ Em).
Qed.
Lemma fits_lk p c : Lk p = FOk c -> fitsN c.
Proof.
  unfold lk. clear SP. induction SF as [|s r Hs Hr IH]; cbn [lookupStubs]; [discriminate|].
  destruct (find false ctrl p s) as [w| |] eqn:E; [|exact (IH Hr)|discriminate].
  destruct (fImplied (nflags w)); [exact (IH Hr)|]. intro H. inversion H; subst. eapply fits_find; eassumption.
Qed.
Lemma plain_lk p c : Lk p = FOk c -> plain c.
Proof. apply (plain_lookup ordinaryKey). exact SP. Qed.

Lemma steady_list l a s t r : steadyLists (mkNode (VList l) a s t r) ->
  ((exists names, Forall2 named l names /\ NoDup names) \/ (exists x, In x l /\ nameless x)) /\ Forall steadyLists l.
Proof.
  intro H. inversion H as [? H1 H2|? ? E|? ? E]; subst; cbn in *; [edestruct H1; reflexivity|discriminate|].
  inversion E; subst. auto.
Qed.
Lemma steady_map m a s t r : steadyLists (mkNode (VMap m) a s t r) -> Forall (fun kv => steadyLists (snd kv)) m.
Proof.
  intro H. inversion H as [? H1 H2|? ? E|? ? E]; subst; cbn in *; [edestruct H2; reflexivity| |discriminate].
  inversion E; subst. auto.
Qed.

Lemma stable_first n : forall so p, plain n -> fitsN n -> steadyLists n -> okP p -> stable so p (pass so p n).
Proof.
  induction n as [v a s t r IH] using node_ind'. intros so p P F S O.
  destruct (leaf_dec v) as [L|[[l ->]|[m ->]]].
  - rewrite pass_leaf by exact L. destruct so.
    + destruct (Lk p) as [ov| |] eqn:El.
      * apply stable_self; [eapply plain_lk, El|eapply fits_lk, El|exact O|exact El].
      * apply (stable_leaf true p (mkNode v a s t r) L). intros _ ov E. congruence.
      * apply (stable_leaf true p (mkNode v a s t r) L). intros _ ov E. congruence.
    + apply (stable_leaf false p (mkNode v a s t r) L). discriminate.
  - rewrite pass_list. apply stable_list. cbn in IH.
    pose proof (plain_list _ _ _ l P eq_refl) as Pl. pose proof (proj1 (fits_list _ _ _ _ _) F) as [Fl Ff].
    apply steady_list in S. destruct S as [S1 S2].
    assert (Hst : uniq (passL ctrl stubs (uniq l []) p l 0) [] = uniq l [] /\
                  forall x i, In x l -> stepF (uniq l []) i (pass false (p ++ [stepF (uniq l []) i x]) x) = stepF (uniq l []) i x).
    { destruct (uniq l []) eqn:U.
      - assert (Hn : forall x i, In x l -> nameOf (pass false (p ++ [stepF true i x]) x) = nameOf x).
        { intros x i I. destruct (uniq_named l [] x U I) as [y Hy]. unfold stepF. rewrite Hy. apply named_pass; assumption. }
        split; [|intros x i I; apply stepF_name, Hn, I]. transitivity (uniq l []); [|exact U]. apply uniq_names.
        clear - Hn. generalize 0 as i. induction l as [|x l IHl]; intro i; [reflexivity|]. cbn [passL map].
        rewrite (Hn x i (or_introl eq_refl)), IHl; [reflexivity|]. intros y j I. apply Hn. right. exact I.
      - split; [|reflexivity]. destruct S1 as [S1|[x [I N]]].
        + apply (uniq_spec0 l Pl) in S1. congruence.
        + destruct (passL_In false p x l 0 I) as [j J]. eapply uniq_none; [exact J|]. apply nameless_pass, N. }
    destruct Hst as [E1 E2]. rewrite E1.
    assert (G : forall l2 i, (forall x, In x l2 -> In x l) -> 0 <= i -> i + Z.of_nat (length l2) <= max64 ->
              stableL (uniq l []) p (passL ctrl stubs (uniq l []) p l2 i) i).
    { rewrite Forall_forall in IH, Pl, Ff, S2. induction l2 as [|x l2 IHl]; intros i Hin H0 H1; [exact I|]. cbn [passL stableL].
      cbn [length] in H1. rewrite (E2 x i) by (apply Hin; left; reflexivity).
      assert (Ix : In x l) by (apply Hin; left; reflexivity). split.
      - apply (IH x Ix); [apply Pl, Ix|apply Ff, Ix|apply S2, Ix|]. apply okP_app; [exact O|apply ok_stepF; lia].
      - apply IHl; [intros y I; apply Hin; right; exact I|lia|lia]. }
    apply G; [auto|lia|lia].
  - rewrite pass_map. apply stable_map. cbn in IH. pose proof (plain_map _ _ _ m P eq_refl) as [Ps [Pk Pm]].
    pose proof (proj1 (fits_map _ _ _ _ _) F) as Ff. apply steady_map in S. rewrite Forall_forall in IH, Pk, Pm, Ff, S. apply Forall_forall.
    intros kv I. unfold passM in I. apply in_map_iff in I. destruct I as [[k c] [<- I]]. cbn [fst snd].
    apply (IH _ I); [apply (Pm _ I)|apply (Ff _ I)|apply (S _ I)|].
    apply okP_app; [exact O|apply ok_ordinary, (Pk _ I)].
Qed.

Lemma fits_pass n : forall so p, fitsN n -> fitsN (pass so p n).
Proof.
  induction n as [v a s t r IH] using node_ind'. intros so p F. destruct (leaf_dec v) as [L|[[l ->]|[m ->]]].
  - rewrite pass_leaf by exact L. destruct so; [|exact F]. destruct (Lk p) eqn:E; [eapply fits_lk, E|exact F|exact F].
  - rewrite pass_list. apply fits_list. apply fits_list in F. destruct F as [F1 F2]. cbn in IH.
    assert (G : forall u i, length (passL ctrl stubs u p l i) = length l /\ Forall fitsN (passL ctrl stubs u p l i)).
    { clear F1. induction l as [|x l IHl]; intros u i; [split; [reflexivity|constructor]|]. inversion IH; subst. inversion F2; subst.
      cbn [passL length]. destruct (IHl H2 H4 u (i + 1)) as [G1 G2]. rewrite G1. split; [reflexivity|]. constructor; auto. }
    destruct (G (uniq l []) 0) as [G1 G2]. rewrite G1. auto.
  - rewrite pass_map. apply fits_map. apply fits_map in F. cbn in IH. rewrite Forall_forall in IH, F. apply Forall_forall.
    intros kv I. unfold passM in I. apply in_map_iff in I. destruct I as [[k c] [<- I]]. cbn [snd].
    apply (IH _ I), (F _ I).
Qed.

(** ** the relation to the specification *)
Fixpoint stepsL (u : bool) (l : list node) (i : Z) : list string :=
  match l with [] => [] | x :: q => stepF u i x :: stepsL u q (i + 1) end.
Lemma stepsL_spec l : Forall plain l -> stepsOf l (stepsL (uniq l []) l 0).
Proof.
  intro P. destruct (uniq l []) eqn:U.
  - left. pose proof (proj1 (uniq_spec0 l P) U) as [names [F N]]. exists names. repeat split; [exact F|exact N|].
    clear U N. generalize 0 as i. induction F as [|x y l names Hx F IH]; intro i; [reflexivity|]. inversion P; subst.
    cbn [stepsL map]. rewrite (IH H2). f_equal. unfold stepF. apply nameOf_named in Hx; [|assumption]. rewrite Hx. reflexivity.
  - right. split.
    + intros steps [names [F [N _]]]. assert (uniq l [] = true) by (apply uniq_spec0; eauto). congruence.
    + unfold byIndex. clear. change 0 with (Z.of_nat 0). generalize 0%nat as i.
      induction l as [|x l IH]; intro i; [reflexivity|]. cbn [stepsL length seq map].
      replace (Z.of_nat i + 1) with (Z.of_nat (S i)) by lia. rewrite IH. reflexivity.
Qed.

Lemma merges_pass n r : forall so p, plain n -> fitsN n -> okP p -> data r = data (pass so p n) -> merges ctrl stubs so p n r.
Proof.
  revert r. induction n as [v a s t q IH] using node_ind'. intros r so p P F O D.
  destruct (leaf_dec v) as [L|[[l ->]|[m ->]]].
  - rewrite pass_leaf in D by exact L.
    assert (LV : forall x, data r = data x -> isLeaf (val x) -> val r = val x).
    { intros x E [L1 L2]. destruct r as [w], x as [y]. cbn in *. injection E as E.
      destruct y; try (exfalso; eapply L1; reflexivity); try (exfalso; eapply L2; reflexivity); destruct w; congruence. }
    destruct so.
    + destruct (Lk p) as [ov| |] eqn:El.
      * apply (M_take ctrl stubs p _ ov); [apply L|apply L| |exact D]. apply lk_defined; assumption.
      * apply M_keep; [apply L|apply L| |apply (LV _ D L)]. intros _. apply lk_none; assumption.
      * exfalso. exact (lk_nopanic p O El).
    + apply M_keep; [apply L|apply L|discriminate|apply (LV _ D L)].
  - rewrite pass_list in D. cbn in IH. pose proof (plain_list _ _ _ l P eq_refl) as Pl.
    pose proof (proj1 (fits_list _ _ _ _ _) F) as [Fl Ff].
    destruct r as [w b s' t' q']. cbn [data] in D. destruct w as [| | | | | |l'| | | |]; try discriminate D.
    injection D as D. eapply M_list; [reflexivity|reflexivity|apply stepsL_spec, Pl|].
    assert (G : forall l' i u, 0 <= i -> i + Z.of_nat (length l) <= max64 ->
              map data l' = map data (passL ctrl stubs u p l i) -> mergesL ctrl stubs p (stepsL u l i) l l').
    2: { apply G; [lia|lia|exact D]. }
    clear P F Fl D l'. induction l as [|x l IHl]; intros l' i u H0 H1 D; destruct l' as [|y l']; try discriminate D; cbn [passL stepsL]; [constructor|].
    cbn [passL map] in D. inversion D as [[D1 D2]]. inversion IH as [|? ? IHx IHr]; subst.
    inversion Pl as [|? ? Px Pr]; subst. inversion Ff as [|? ? Fx Fr]; subst. cbn [length] in H1.
    constructor; [|apply (IHl IHr Pr Fr l' (i + 1) u); [lia|lia|exact D2]].
    apply IHx; [exact Px|exact Fx| |exact D1]. apply okP_app; [exact O|apply ok_stepF; lia].
  - rewrite pass_map in D. cbn in IH. pose proof (plain_map _ _ _ m P eq_refl) as [_ [Pk Pm]].
    pose proof (proj1 (fits_map _ _ _ _ _) F) as Ff.
    destruct r as [w b s' t' q']. cbn [data] in D. destruct w as [| | | | | | |m'| | |]; try discriminate D.
    injection D as D. eapply M_map; [reflexivity|reflexivity|]. clear P F. revert m' D.
    induction m as [|[k c] m IHm]; intros [|[k' c'] m'] D; try discriminate D; [constructor|].
    cbn [passM map fst snd] in D. inversion D as [[D0 D1 D2]]. inversion IH as [|? ? IHx IHr]; subst.
    inversion Pk as [|? ? Kx Kr]; subst. inversion Pm as [|? ? Px Pr]; subst. inversion Ff as [|? ? Fx Fr]; subst.
    cbn [fst snd] in *. constructor; [|apply (IHm IHr Kr Pr Fr m' D2)]. cbn [fst snd]. split; [reflexivity|].
    apply IHx; [exact Px|exact Fx| |exact D1]. apply okP_app; [exact O|apply ok_ordinary, Kx].
Qed.
End Stable.
