(** C08: the structural diff. *)
From Coq Require Import Lia Floats.SpecFloat.
From Verif Require Import Core CoreFacts Str StrFacts DeepEq DeepEqFacts Equiv EquivFacts Find Compare PropNode.

(* ------------------------------------------------------------------ *)
(** * Specification *)

(** the name of a list element: the text of its entry "name", if it is a map
    without merge entries *)
Definition named (n : node) (s : string) : Prop :=
  exists m c, val n = VMap m /\ mget "<<" m = None /\ mget "<<<" m = None /\ mget "name" m = Some c /\ val c = VStr s.
Definition unnamed (n : node) : Prop := forall s, ~ named n s.

(** where a value is located: the document itself, the value of its entry
    "jobs", or anywhere else.  A list at "jobs" gets a special treatment. *)
Inductive place := Root | Jobs | Inside.
Definition below (w : place) (k : string) : place :=
  match w with Root => if String.eqb k "jobs" then Jobs else Inside | _ => Inside end.

(** Two values are the same up to the order of named list elements. *)
Inductive matches : place -> value -> value -> Prop :=
| M_scalar w v v' : (forall l, v <> VList l) -> (forall m, v <> VMap m) -> same_data v v' -> matches w v v'
| M_map w m m' :
    (forall k, In k (mkeys m) <-> In k (mkeys m')) ->
    (forall k x y, In (k, x) m -> In (k, y) m' -> matches (below w k) (val x) (val y)) ->
    matches w (VMap m) (VMap m')
| M_list w l l' : w <> Jobs ->
    length l = length l' ->
    (forall x s, In x l -> named x s -> exists y, In y l' /\ named y s /\ matches Inside (val x) (val y)) ->
    (forall i x, nth_error l i = Some x -> unnamed x ->
        exists y, nth_error l' i = Some y /\ matches Inside (val x) (val y)) ->
    matches w (VList l) (VList l')
(** jobs: same order; the entry "index" of a job is ignored *)
| M_jobs l l' :
    length l = length l' ->
    (forall i x y, nth_error l i = Some x -> nth_error l' i = Some y -> exists m m' s,
        val x = VMap m /\ val y = VMap m' /\ named x s /\ named y s /\
        matches Inside (VMap (mdel "index" m)) (VMap (mdel "index" m'))) ->
    matches Jobs (VList l) (VList l')
(** a map is the same as a list of named elements (but not vice versa) *)
| M_named w m l' :
    (forall y, In y l' -> exists s, named y s) ->
    (forall k, In k (mkeys m) <-> exists y, In y l' /\ named y k) ->
    (forall k x y m', In (k, x) m -> In y l' -> named y k -> val y = VMap m' ->
        matches (below w k) (val x) (VMap (mdel "name" m'))) ->
    matches w (VMap m) (VList l').

(** no two elements of a list have the same name (at any depth); jobs are maps
    and have a name *)
Definition distinct_names (l : list node) : Prop :=
  forall i j x y s, nth_error l i = Some x -> nth_error l j = Some y -> named x s -> named y s -> i = j.
Inductive regular : place -> value -> Prop :=
| RG_scalar w v : (forall l, v <> VList l) -> (forall m, v <> VMap m) -> regular w v
| RG_map w m : (forall k x, In (k, x) m -> regular (below w k) (val x)) -> regular w (VMap m)
| RG_list w l : distinct_names l -> Forall (fun n => regular Inside (val n)) l ->
    (w = Jobs -> Forall (fun n => exists s, named n s) l) -> regular w (VList l).

(* ------------------------------------------------------------------ *)
(** * Lemmas *)

Lemma findName_spec n s : findName n = Some s <-> named n s.
Proof.
  unfold findName, named. cbn [find]. unfold nextStep. split.
  - destruct (val n) as [| | | | | |l|m| | |] eqn:E; try discriminate.
    + destruct (false || listResolved l); [|discriminate]. unfold stepList.
      replace (stepIndex "name") with (@None (option Z)) by reflexivity.
      unfold stepKey. replace (cutColon "name") with (@None (string * string)) by reflexivity.
      generalize (if String.eqb (a_keyName (ann n)) "" then "name" else a_keyName (ann n)). intros key H. exfalso. revert H. clear E.
      induction l as [|x r IH]; [discriminate|]. cbn [findKeyed].
      unfold keyField. destruct (val x) as [| | | | | |?|m| | |] eqn:Ex; try exact IH.
      destruct (false || mapResolved false m); [|exact IH]. destruct (mget key m) as [c|]; [|exact IH].
      destruct (val c) as [| | | | |s0| | | | |]; try exact IH. destruct (String.eqb s0 "name"); [|exact IH]. rewrite Ex. discriminate.
    + cbn [orb]. unfold mapResolved. cbn [andb negb].
      destruct (mget "<<" m) eqn:E1; [discriminate|]. unfold MERGEKEY. destruct (mget "<<<" m) eqn:E2; [discriminate|].
      destruct (mget "name" m) as [c|] eqn:E3; [|discriminate]. destruct (val c) eqn:E4; try discriminate.
      intro H. injection H as <-. exists m, c. auto.
  - intros [m [c [-> [E1 [E2 [E3 E4]]]]]]. cbn [orb]. unfold mapResolved, MERGEKEY. rewrite E1, E2, E3. cbn. rewrite E4. reflexivity.
Qed.
Lemma findName_none n : findName n = None <-> unnamed n.
Proof.
  unfold unnamed. split.
  - intros H s Hs. apply findName_spec in Hs. congruence.
  - intro H. destruct (findName n) as [s|] eqn:E; [|reflexivity]. apply findName_spec in E. destruct (H s E).
Qed.
Lemma named_fun n s s' : named n s -> named n s' -> s = s'.
Proof. rewrite <- !findName_spec. congruence. Qed.
Lemma named_dec n : (exists s, named n s) \/ unnamed n.
Proof.
  destruct (findName n) as [s|] eqn:E; [left; exists s; apply findName_spec; exact E|right; apply findName_none; exact E].
Qed.
Lemma named_val n s : named n s -> exists m, val n = VMap m.
Proof. intros [m [c [E _]]]. eauto. Qed.
Lemma named_ext n n' s : val n = val n' -> named n s -> named n' s.
Proof. unfold named. intros ->. auto. Qed.

Lemma capp_nil r1 r2 : capp r1 r2 = COk [] <-> r1 = COk [] /\ r2 = COk [].
Proof.
  destruct r1 as [l1| |], r2 as [l2| |]; cbn; try (split; [discriminate|intros [? ?]; discriminate]).
  split.
  - intro H. injection H as H. apply app_eq_nil in H. destruct H as [-> ->]. auto.
  - intros [H1 H2]. injection H1 as ->. injection H2 as ->. reflexivity.
Qed.
Lemma cconcat_nil l : cconcat l = COk [] <-> forall r, In r l -> r = COk [].
Proof.
  induction l as [|r l IH]; [split; [intros _ ? []|reflexivity]|].
  change (cconcat (r :: l)) with (capp r (cconcat l)). rewrite capp_nil, IH. split.
  - intros [-> H] r' [<-|H']; auto.
  - intro H. split; [apply H; left; reflexivity|intros; apply H; right; assumption].
Qed.

Lemma compareMap_nil rec m m' path : msorted m ->
  (compareMap rec m m' path = COk [] <->
   (forall k, In k (mkeys m) <-> In k (mkeys m')) /\
   (forall k x y, In (k, x) m -> mget k m' = Some y -> rec x y (path ++ [k]) = COk [])).
Proof.
  intro S. unfold compareMap. rewrite capp_nil, !cconcat_nil. split.
  - intros [H1 H2]. split.
    + intro k. split; intro Hk.
      * unfold mkeys in Hk. apply in_map_iff in Hk. destruct Hk as [[k' x] [<- Hk]]. cbn.
        specialize (H1 _ (in_map _ _ _ Hk)). cbn in H1. destruct (mget k' m') eqn:E; [|discriminate].
        apply mget_Some_key in E. exact E.
      * unfold mkeys in Hk. apply in_map_iff in Hk. destruct Hk as [[k' y] [<- Hk]]. cbn.
        specialize (H2 _ (in_map _ _ _ Hk)). cbn in H2. destruct (mget k' m) eqn:E; [|discriminate].
        apply mget_Some_key in E. exact E.
    + intros k x y Hx Hy. specialize (H1 _ (in_map _ _ _ Hx)). cbn in H1. rewrite Hy in H1. exact H1.
  - intros [K H]. split; intros r Hr; apply in_map_iff in Hr; destruct Hr as [[k x] [<- Hk]]; cbn.
    + destruct (mget k m') as [y|] eqn:E; [eauto|]. apply mget_None in E. exfalso. apply E. apply K.
      unfold mkeys. apply in_map_iff. exists (k, x). auto.
    + destruct (mget k m) as [y|] eqn:E; [reflexivity|]. apply mget_None in E. exfalso. apply E. apply K.
      unfold mkeys. apply in_map_iff. exists (k, x). auto.
Qed.

Lemma findByName_spec name l :
  match findByName name l with
  | Some y => In y l /\ named y name
  | None => forall y, In y l -> ~ named y name
  end.
Proof.
  induction l as [|x r IH]; cbn [findByName]; [intros ? []|].
  destruct (findName x) as [s|] eqn:E.
  - destruct (String.eqb_spec s name) as [->|Hn].
    + split; [left; reflexivity|apply findName_spec; exact E].
    + destruct (findByName name r) as [y|].
      * destruct IH as [H1 H2]. split; [right; exact H1|exact H2].
      * intros y [<-|Hy] H; [|exact (IH _ Hy H)]. apply findName_spec in H. congruence.
  - destruct (findByName name r) as [y|].
    + destruct IH as [H1 H2]. split; [right; exact H1|exact H2].
    + intros y [<-|Hy] H; [|exact (IH _ Hy H)]. apply findName_spec in H. congruence.
Qed.

Lemma listLoopA_nil rec l : forall i others path,
  (listLoopA rec l i others path = COk [] <->
   forall j x, nth_error l j = Some x ->
     exists y, snd (findByNameOrIndex x others (i + j)) = Some y /\
               rec x y (path ++ [fst (findByNameOrIndex x others (i + j))]) = COk []).
Proof.
  induction l as [|x r IH]; intros i others path.
  - split; [intros _ [|j] ? H; discriminate|reflexivity].
  - cbn [listLoopA]. destruct (findByNameOrIndex x others i) as [key found] eqn:E. rewrite capp_nil, IH. split.
    + intros [H1 H2] [|j] z Hz; cbn in Hz.
      * injection Hz as <-. rewrite Nat.add_0_r, E. cbn. destruct found as [y|]; [|discriminate]. eauto.
      * replace (i + S j)%nat with (S i + j)%nat by lia. apply H2. exact Hz.
    + intro H. split.
      * destruct (H 0%nat x eq_refl) as [y [H1 H2]]. rewrite Nat.add_0_r, E in H1, H2. cbn in H1, H2. subst found. exact H2.
      * intros j z Hz. replace (S i + j)%nat with (i + S j)%nat by lia. apply H. exact Hz.
Qed.
Lemma listLoopB_nil l : forall i n path, (listLoopB l i n path = COk [] <-> l = [] \/ (i + length l <= n)%nat).
Proof.
  induction l as [|x r IH]; intros i n path; [split; auto|]. cbn [listLoopB length]. rewrite capp_nil, IH.
  destruct (Nat.leb n i) eqn:E; [apply Nat.leb_le in E|apply Nat.leb_gt in E].
  - split; [intros [H _]; discriminate|intros [H|H]; [discriminate|lia]].
  - split.
    + intros [_ [->|H]]; right; cbn; lia.
    + intros [H|H]; [discriminate|]. split; [reflexivity|]. right. lia.
Qed.

(** listToMap *)
Definition strip (y : node) : node :=
  match val y with VMap m => substituteNodeV (VMap (mdel "name" m)) y | _ => y end.
Lemma strip_val y m : val y = VMap m -> val (strip y) = VMap (mdel "name" m).
Proof. unfold strip. destruct y as [v a s t r]. cbn. intros ->. reflexivity. Qed.
Lemma listToMap_loop_spec l : forall acc, msorted acc ->
  match listToMap_loop l acc with
  | Some m' => (forall y, In y l -> exists s, named y s) /\ msorted m' /\
      (forall k, In k (mkeys m') <-> In k (mkeys acc) \/ exists y, In y l /\ named y k) /\
      (forall k z, mget k m' = Some z ->
         (exists y, In y l /\ named y k /\ z = strip y) \/ (mget k acc = Some z /\ forall y, In y l -> ~ named y k))
  | None => exists y, In y l /\ unnamed y
  end.
Proof.
  induction l as [|x r IH]; intros acc Sa; cbn [listToMap_loop].
  - repeat split; auto; try (intros ? []).
    + intros [H|[y [[] _]]]; exact H.
  - destruct (findName x) as [s|] eqn:E.
    + pose proof (proj1 (findName_spec _ _) E) as Nx. destruct (named_val _ _ Nx) as [m Em]. rewrite Em.
      specialize (IH (mset s (substituteNodeV (VMap (mdel "name" m)) x) acc) (msorted_mset _ _ _ Sa)).
      destruct (listToMap_loop r _) as [m'|].
      * destruct IH as [H1 [H2 [H3 H4]]]. split; [|split; [exact H2|split]].
        -- intros y [<-|Hy]; eauto.
        -- intro k. rewrite H3, mkeys_mset. split.
           ++ intros [[->|H]|[y [Hy Ny]]]; [right; exists x; cbn; auto|left; exact H|right; exists y; cbn; auto].
           ++ intros [H|[y [[<-|Hy] Ny]]]; [auto| |right; eauto].
              left. left. apply (named_fun x); assumption.
        -- intros k z Hz. destruct (H4 k z Hz) as [[y [Hy [Ny ->]]]|[Hz' Hn]]; [left; exists y; cbn; auto|].
           rewrite mget_mset in Hz'. destruct (String.eqb_spec k s) as [->|Hk].
           ++ injection Hz' as <-. left. exists x. split; [left; reflexivity|]. split; [exact Nx|].
              unfold strip. rewrite Em. reflexivity.
           ++ right. split; [exact Hz'|]. intros y [<-|Hy]; [|auto]. intro Ny. apply Hk. apply (named_fun x); assumption.
      * destruct IH as [y [Hy Uy]]. exists y. cbn. auto.
    + exists x. split; [left; reflexivity|apply findName_none; exact E].
Qed.

(** jobMap *)
Definition indexed (x : node) (i : Z) : node :=
  match val x with VMap m => newNode (VMap (mset "index" (newNode (VInt i) (src x)) m)) (src x) | _ => x end.
Lemma jobMap_loop_spec l : forall i acc, msorted acc -> Forall (fun n => exists s, named n s) l ->
  exists m', jobMap_loop l i acc = Some m' /\ msorted m' /\
    (forall k, In k (mkeys m') <-> In k (mkeys acc) \/ exists y, In y l /\ named y k) /\
    (forall k z, mget k m' = Some z ->
       (exists j y, nth_error l j = Some y /\ named y k /\ z = indexed y (i + Z.of_nat j)) \/
       (mget k acc = Some z /\ forall y, In y l -> ~ named y k)).
Proof.
  induction l as [|x r IH]; intros i acc Sa F; cbn [jobMap_loop].
  - exists acc. repeat split; auto. intros [H|[y [[] _]]]; exact H.
  - inversion F as [|? ? [s Nx] F']; subst. destruct (named_val _ _ Nx) as [m Em]. rewrite Em.
    rewrite (proj2 (findName_spec _ _) Nx).
    destruct (IH (i + 1) (mset s (newNode (VMap (mset "index" (newNode (VInt i) (src x)) m)) (src x)) acc)
               (msorted_mset _ _ _ Sa) F') as [m' [-> [H2 [H3 H4]]]].
    exists m'. split; [reflexivity|]. split; [exact H2|]. split.
    + intro k. rewrite H3, mkeys_mset. split.
      * intros [[->|H]|[y [Hy Ny]]]; [right; exists x; cbn; auto|left; exact H|right; exists y; cbn; auto].
      * intros [H|[y [[<-|Hy] Ny]]]; [auto| |right; eauto].
        left. left. apply (named_fun x); assumption.
    + intros k z Hz. destruct (H4 k z Hz) as [[j [y [Hy [Ny ->]]]]|[Hz' Hn]].
      * left. exists (S j), y. repeat split; auto. f_equal. lia.
      * rewrite mget_mset in Hz'. destruct (String.eqb_spec k s) as [->|Hk].
        -- injection Hz' as <-. left. exists 0%nat, x. repeat split; [exact Nx|]. unfold indexed. rewrite Em, Z.add_0_r. reflexivity.
        -- right. split; [exact Hz'|]. intros y [<-|Hy]; [|auto]. intro Ny. apply Hk. apply (named_fun x); assumption.
Qed.
Lemma jobMap_none l : ~ Forall (fun n => exists s, named n s) l -> forall i acc, jobMap_loop l i acc = None.
Proof.
  induction l as [|x r IH]; intros H i acc; [destruct H; constructor|]. cbn [jobMap_loop].
  destruct (val x) as [| | | | | |?|m| | |] eqn:E; try reflexivity.
  destruct (findName x) as [s|] eqn:En; [|reflexivity]. apply IH. intro F. apply H. constructor; [|exact F].
  exists s. apply findName_spec. exact En.
Qed.

(** scalars *)
Lemma scalar_eq v v' : plainV v -> plainV v' -> (forall l, v <> VList l) -> (forall m, v <> VMap m) ->
  (deepEqV v v' = true <-> same_data v v').
Proof.
  intros P P' N1 N2.
  assert (W : wfV v) by (destruct P; try exact I; [destruct (N1 l); reflexivity|destruct (N2 m); reflexivity]).
  destruct P as [|x|x|x|x|x|l|m]; try (destruct (N1 l); reflexivity); try (destruct (N2 m); reflexivity);
    destruct P' as [|y|y|y|y|y|l'|m'];
    try (split; intro X; [cbn in X; discriminate X|inversion X]; fail);
    match goal with |- deepEqV ?a ?b = true <-> _ =>
      rewrite <- (C07_characterized (mkNode a emptyAnn "" None None) (mkNode b emptyAnn "" None None)) by (try exact I; constructor) end;
    reflexivity.
Qed.

(** depth *)
Lemma depth_list l a s t r x : In x l -> (depthN x < depthN (mkNode (VList l) a s t r))%nat.
Proof.
  intro H. cbn. apply Nat.lt_succ_r. induction l as [|y l IH]; [destruct H|]. cbn.
  destruct H as [<-|H]; [lia|]. specialize (IH H). lia.
Qed.
Lemma depth_map m a s t r k x : In (k, x) m -> (depthN x < depthN (mkNode (VMap m) a s t r))%nat.
Proof.
  intro H. cbn. apply Nat.lt_succ_r. induction m as [|[k' y] m IH]; [destruct H|]. cbn.
  destruct H as [H|H]; [injection H as -> ->; lia|]. specialize (IH H). lia.
Qed.
Lemma depth_val n n' : val n = val n' -> depthN n = depthN n'.
Proof. destruct n as [v ? ? ? ?], n' as [v' ? ? ? ?]. cbn. intros ->. reflexivity. Qed.
Lemma depth_map_le m d a s t r : (forall k x, In (k, x) m -> (depthN x < d)%nat) -> (0 < d)%nat -> (depthN (mkNode (VMap m) a s t r) <= d)%nat.
Proof.
  intros H Hd. cbn. induction m as [|[k y] m IH]; cbn; [lia|].
  assert (depthN y < d)%nat by (eapply H; left; reflexivity).
  assert (S (fold_right Nat.max 0 (map (fun kv : string * node => let (_, x) := kv in depthN x) m)) <= d)%nat by (apply IH; intros; eapply H; right; eauto).
  lia.
Qed.

Lemma mset_in {A} k k' (v v' : A) m : msorted m -> In (k, v) (mset k' v' m) -> (k = k' /\ v = v') \/ (k <> k' /\ In (k, v) m).
Proof.
  intros S H. apply In_mget in H; [|apply msorted_NoDup, msorted_mset; exact S]. rewrite mget_mset in H.
  destruct (String.eqb_spec k k') as [->|Hk]; [left; split; congruence|right; split; [exact Hk|apply mget_In; exact H]].
Qed.
Lemma in_mset_other {A} k k' (v v' : A) m : msorted m -> k <> k' -> In (k, v) m -> In (k, v) (mset k' v' m).
Proof.
  intros S Hk H. apply mget_In. rewrite mget_mset. destruct (String.eqb_spec k k'); [contradiction|].
  apply In_mget; [apply msorted_NoDup; exact S|exact H].
Qed.
Lemma mdel_in {A} k k' (v : A) m : In (k, v) (mdel k' m) <-> k <> k' /\ In (k, v) m.
Proof.
  induction m as [|[k1 v1] m IH]; cbn [mdel]; [cbn; tauto|].
  destruct (String.eqb_spec k' k1) as [->|H]; cbn [In].
  - rewrite IH. split; [tauto|]. intros [H1 [H2|H2]]; [injection H2 as -> _; contradiction|auto].
  - rewrite IH. split.
    + intros [H2|[H1 H2]]; [injection H2 as <- <-; auto|auto].
    + tauto.
Qed.
Lemma mdel_keys {A} k k' (m : smap A) : In k (mkeys (mdel k' m)) <-> k <> k' /\ In k (mkeys m).
Proof.
  unfold mkeys. rewrite !in_map_iff. split.
  - intros [[x v] [<- H]]. apply mdel_in in H. cbn. split; [tauto|]. exists (x, v). tauto.
  - intros [Hk [[x v] [<- H]]]. exists (x, v). cbn in *. split; [reflexivity|]. apply mdel_in. auto.
Qed.
Lemma msorted_mdel {A} k (m : smap A) : msorted m -> msorted (mdel k m).
Proof.
  induction m as [|[k1 v1] m IH]; cbn [mdel]; [auto|]. intros [H1 H2].
  destruct (String.eqb k k1); [auto|]. split; [|auto].
  intros k' Hk'. apply H1. change (In k' (mkeys (mdel k m))) in Hk'. apply mdel_keys in Hk'. apply Hk'.
Qed.

Lemma matches_place w w' m v : w <> Root -> w' <> Root -> matches w (VMap m) v -> matches w' (VMap m) v.
Proof.
  intros Hw Hw' H. inversion H as [? ? ? N1 N2 _|? ? ? K R| | |? ? ? A K R]; subst.
  - destruct (N2 m). reflexivity.
  - apply M_map; [exact K|]. intros k x y Hx Hy. specialize (R k x y Hx Hy). destruct w, w'; try contradiction; exact R.
  - apply M_named; [exact A|exact K|]. intros k x y m' Hx Hy Hn Hv. specialize (R k x y m' Hx Hy Hn Hv). destruct w, w'; try contradiction; exact R.
Qed.

Definition placeOf (path : list string) : place :=
  match path with [] => Root | [s] => if String.eqb s "jobs" then Jobs else Inside | _ => Inside end.
Lemma placeOf_below path k : placeOf (path ++ [k]) = below (placeOf path) k.
Proof.
  destruct path as [|s [|t p]]; [reflexivity| |].
  - cbn. destruct (String.eqb s "jobs"); reflexivity.
  - cbn. destruct p; reflexivity.
Qed.

Lemma regular_place w w' m : w <> Root -> w' <> Root -> regular w (VMap m) -> regular w' (VMap m).
Proof.
  intros Hw Hw' H. inversion H as [? ? N1 N2|? ? R|]; subst; [destruct (N2 m); reflexivity|].
  apply RG_map. intros k x Hx. specialize (R k x Hx). destruct w, w'; try contradiction; exact R.
Qed.
Lemma below_notroot w k : below w k <> Root.
Proof. destruct w; cbn; [destruct (String.eqb k "jobs")| |]; discriminate. Qed.
Lemma below_index w i : below w (indexKey i) = Inside.
Proof. destruct w; reflexivity. Qed.

(** matched elements have the same name *)
Lemma matches_named w x y s : msorted (match val x with VMap m => m | _ => [] end) ->
  msorted (match val y with VMap m => m | _ => [] end) ->
  matches w (val x) (val y) -> named x s -> named y s.
Proof.
  intros Sx Sy M [m [c [E [E1 [E2 [E3 E4]]]]]]. rewrite E in *.
  inversion M as [? ? ? N1 N2 _|? ? m' K R| | |? ? l' A K R]; subst.
  - destruct (N2 m). reflexivity.
  - assert (Ey : val y = VMap m') by congruence. rewrite Ey in Sy. exists m'.
    assert (NK : forall k, mget k m = None -> mget k m' = None).
    { intros k Hk. apply mget_None. apply mget_None in Hk. rewrite <- K. exact Hk. }
    destruct (key_mget "name" m') as [d Ed]. { apply K. apply mget_Some_key in E3. exact E3. }
    exists d. repeat split; auto.
    specialize (R "name" c d (mget_In _ _ _ E3) (mget_In _ _ _ Ed)). rewrite E4 in R.
    inversion R as [? ? ? _ _ SD| | | |]; subst. inversion SD; congruence.
  - exfalso. destruct (proj1 (K "name")) as [z [Hz Nz]]; [apply mget_Some_key in E3; exact E3|].
    destruct (named_val _ _ Nz) as [mz Ez].
    specialize (R "name" c z mz (mget_In _ _ _ E3) Hz Nz Ez). rewrite E4 in R.
    inversion R as [? ? ? _ _ SD| | | |]; subst. inversion SD.
Qed.
Lemma matches_unnamed w x y : msorted (match val x with VMap m => m | _ => [] end) ->
  msorted (match val y with VMap m => m | _ => [] end) ->
  matches w (val x) (val y) -> unnamed x -> unnamed y.
Proof.
  intros Sx Sy M U s [m' [d [E [E1 [E2 [E3 E4]]]]]]. rewrite E in *.
  inversion M as [? ? ? N1 N2 SD|? m ? K R| | |]; subst.
  - inversion SD as [| | | | | | |m ? K R]; subst. destruct (N2 m). congruence.
  - assert (Ex : val x = VMap m) by congruence. rewrite Ex in Sx. apply (U s). exists m.
    assert (NK : forall k, mget k m' = None -> mget k m = None).
    { intros k Hk. apply mget_None. apply mget_None in Hk. rewrite K. exact Hk. }
    destruct (key_mget "name" m) as [c Ec]. { apply K. apply mget_Some_key in E3. exact E3. }
    exists c. repeat split; auto.
    specialize (R "name" c d (mget_In _ _ _ Ec) (mget_In _ _ _ E3)). rewrite E4 in R.
    inversion R as [? ? ? _ _ SD| | | |]; subst. inversion SD; congruence.
Qed.
Lemma wf_sorted n : wfN n -> msorted (match val n with VMap m => m | _ => [] end).
Proof. intro W. apply wfN_val in W. destruct (val n); try exact I. apply wf_map in W. apply W. Qed.

Lemma pigeon (R : nat -> nat -> Prop) m :
  (forall j j' k, R j k -> R j' k -> j = j') ->
  forall n, (forall j, (j < n)%nat -> exists k, (k < m)%nat /\ R j k) -> (n <= m)%nat.
Proof.
  intros Inj n H.
  assert (L : exists ks, length ks = n /\ NoDup ks /\ (forall k, In k ks -> (k < m)%nat /\ exists j, (j < n)%nat /\ R j k)).
  { induction n as [|n IH]; [exists []; split; [reflexivity|split; [apply NoDup_nil|intros ? []]]|].
    destruct IH as [ks [L1 [L2 L3]]]; [intros j Hj; apply H; lia|].
    destruct (H n ltac:(lia)) as [k [Hk Rk]]. exists (k :: ks). split; [cbn; lia|]. split.
    - constructor; [|exact L2]. intro I. destruct (L3 k I) as [_ [j [Hj Rj]]]. pose proof (Inj _ _ _ Rk Rj). lia.
    - intros k0 [<-|I0]; [split; [exact Hk|exists n; split; [lia|exact Rk]]|].
      destruct (L3 k0 I0) as [Hk0 [j [Hj Rj]]]. split; [exact Hk0|]. exists j. split; [lia|exact Rj]. }
  destruct L as [ks [L1 [L2 L3]]].
  assert (incl ks (seq 0 m)) by (intros k Hk; apply in_seq; destruct (L3 k Hk); lia).
  pose proof (NoDup_incl_length L2 H0) as Q. rewrite seq_length in Q. lia.
Qed.

Lemma distinct_eq l x y s : distinct_names l -> In x l -> In y l -> named x s -> named y s -> x = y.
Proof.
  intros D Hx Hy Nx Ny. apply In_nth_error in Hx. apply In_nth_error in Hy. destruct Hx as [i Hi], Hy as [j Hj].
  pose proof (D i j x y s Hi Hj Nx Ny). subst j. congruence.
Qed.
Lemma plain_map m : plainV (VMap m) <-> forall k x, In (k, x) m -> plainV (val x).
Proof.
  split.
  - intros H k x Hx. inversion H as [| | | | | | |? F]; subst. rewrite Forall_forall in F. apply (F _ Hx).
  - intro H. constructor. apply Forall_forall. intros [k x] Hx. apply (H _ _ Hx).
Qed.
Lemma plain_list l : plainV (VList l) <-> forall x, In x l -> plainV (val x).
Proof.
  split.
  - intros H x Hx. inversion H as [| | | | | |? F|]; subst. rewrite Forall_forall in F. apply (F _ Hx).
  - intro H. constructor. apply Forall_forall. exact H.
Qed.
Lemma wfm m : wfV (VMap m) <-> msorted m /\ forall k x, In (k, x) m -> wfN x.
Proof.
  rewrite wf_map, Forall_forall. split; intros [H1 H2]; (split; [exact H1|]).
  - intros k x Hx. apply (H2 _ Hx).
  - intros [k x] Hx. apply (H2 _ _ Hx).
Qed.

Section Main.
Variable f : nat.
Hypothesis IH : forall a b path, (depthN a <= f)%nat -> wfN a -> wfN b -> plainV (val a) -> plainV (val b) ->
  regular (placeOf path) (val a) -> regular (placeOf path) (val b) ->
  (compareF f a b path = COk [] <-> matches (placeOf path) (val a) (val b)).

Lemma main_map m m' path : (forall k x, In (k, x) m -> depthN x <= f)%nat ->
  wfV (VMap m) -> wfV (VMap m') -> plainV (VMap m) -> plainV (VMap m') ->
  regular (placeOf path) (VMap m) -> regular (placeOf path) (VMap m') ->
  (compareMap (compareF f) m m' path = COk [] <-> matches (placeOf path) (VMap m) (VMap m')).
Proof.
  intros D W W' P P' R R'. apply wfm in W. apply wfm in W'. destruct W as [S W], W' as [S' W'].
  rewrite plain_map in P, P'.
  assert (Rm : forall k x, In (k, x) m -> regular (below (placeOf path) k) (val x)).
  { inversion R as [? ? N1 N2|? ? Q|]; subst; [destruct (N2 m); reflexivity|exact Q]. }
  assert (Rm' : forall k x, In (k, x) m' -> regular (below (placeOf path) k) (val x)).
  { inversion R' as [? ? N1 N2|? ? Q|]; subst; [destruct (N2 m'); reflexivity|exact Q]. }
  rewrite compareMap_nil by exact S.
  assert (E : forall k x y, In (k, x) m -> In (k, y) m' ->
     (compareF f x y (path ++ [k]) = COk [] <-> matches (below (placeOf path) k) (val x) (val y))).
  { intros k x y Hx Hy. rewrite <- placeOf_below. apply IH; eauto; rewrite placeOf_below; eauto. }
  split.
  - intros [K H]. apply M_map; [exact K|]. intros k x y Hx Hy. apply E; auto. apply (H k x y Hx).
    apply In_mget; [apply msorted_NoDup; exact S'|exact Hy].
  - intro M. inversion M as [? ? ? N1 N2 _|? ? ? K H| | |]; subst; [destruct (N2 m); reflexivity|].
    split; [exact K|]. intros k x y Hx Hy. apply mget_In in Hy. apply E; auto.
Qed.

Lemma main_named m l' path : (forall k x, In (k, x) m -> depthN x <= f)%nat ->
  wfV (VMap m) -> wfV (VList l') -> plainV (VMap m) -> plainV (VList l') ->
  regular (placeOf path) (VMap m) -> regular (placeOf path) (VList l') ->
  (match listToMap l' with Some m' => compareMap (compareF f) m m' path = COk [] | None => False end
   <-> matches (placeOf path) (VMap m) (VList l')).
Proof.
  intros D W W' P P' R R'. apply wfm in W. apply wf_list in W'. destruct W as [S W].
  rewrite plain_map in P. rewrite plain_list in P'. rewrite Forall_forall in W'.
  assert (Rm : forall k x, In (k, x) m -> regular (below (placeOf path) k) (val x)).
  { inversion R as [? ? N1 N2|? ? Q|]; subst; [destruct (N2 m); reflexivity|exact Q]. }
  assert (RL : distinct_names l' /\ forall y, In y l' -> regular Inside (val y)).
  { inversion R' as [? ? N1 N2| |? ? Q1 Q2 _]; subst; [destruct (N1 l'); reflexivity|]. rewrite Forall_forall in Q2. auto. }
  destruct RL as [DN RL].
  unfold listToMap. pose proof (listToMap_loop_spec l' [] I) as LS. destruct (listToMap_loop l' []) as [m'|].
  - destruct LS as [L1 [L2 [L3 L4]]]. rewrite compareMap_nil by exact S.
    assert (G : forall k z, mget k m' = Some z -> exists y, In y l' /\ named y k /\ z = strip y).
    { intros k z Hz. destruct (L4 k z Hz) as [H|[H _]]; [exact H|discriminate]. }
    assert (KE : forall k, In k (mkeys m') <-> exists y, In y l' /\ named y k).
    { intro k. rewrite L3. cbn. tauto. }
    assert (E : forall k x y my, In (k, x) m -> In y l' -> named y k -> val y = VMap my ->
       (compareF f x (strip y) (path ++ [k]) = COk [] <-> matches (below (placeOf path) k) (val x) (VMap (mdel "name" my)))).
    { intros k x y my Hx Hy Ny Ey. rewrite <- placeOf_below, <- (strip_val y my Ey).
      pose proof (W' _ Hy) as Wy. apply wfN_val in Wy. rewrite Ey in Wy. apply wfm in Wy. destruct Wy as [Sy Wy].
      pose proof (P' _ Hy) as Py. rewrite Ey in Py. rewrite plain_map in Py.
      pose proof (RL _ Hy) as Ry. rewrite Ey in Ry.
      apply IH; eauto; rewrite ?(strip_val y my Ey).
      - apply wfN_val. rewrite (strip_val y my Ey). apply wfm. split; [apply msorted_mdel; exact Sy|].
        intros k' x' H'. apply mdel_in in H'. destruct H'. eauto.
      - apply plain_map. intros k' x' H'. apply mdel_in in H'. destruct H'. eauto.
      - rewrite placeOf_below. eauto.
      - rewrite placeOf_below. apply (regular_place Inside); [discriminate|apply below_notroot|].
        apply RG_map. intros k' x' H'. apply mdel_in in H'. destruct H' as [_ H'].
        inversion Ry as [? ? N1 N2|? ? Q|]; subst; [destruct (N2 my); reflexivity|]. apply (Q _ _ H'). }
    split.
    + intros [K H]. apply M_named; [exact L1|intro k; rewrite K; apply KE|].
      intros k x y my Hx Hy Ny Ey. apply (E k x y my Hx Hy Ny Ey).
      destruct (key_mget k m') as [z Hz]. { apply KE. eauto. }
      destruct (G k z Hz) as [y' [Hy' [Ny' ->]]].
      assert (y' = y) by (apply (distinct_eq l' y' y k); assumption). subst y'. eauto.
    + intro M. inversion M as [? ? ? N1 N2 _| | | |? ? ? A K H]; subst; [destruct (N2 m); reflexivity|].
      split; [intro k; rewrite KE; apply K|]. intros k x z Hx Hz.
      destruct (G k z Hz) as [y [Hy [Ny ->]]]. destruct (named_val _ _ Ny) as [my Ey].
      apply (E k x y my Hx Hy Ny Ey). eauto.
  - destruct LS as [y [Hy Uy]]. split; [tauto|]. intro M.
    inversion M as [? ? ? N1 N2 _| | | |? ? ? A K H]; subst; [destruct (N2 m); reflexivity|].
    destruct (A y Hy) as [s Hs]. exact (Uy s Hs).
Qed.

Lemma main_list l l' path : (forall x, In x l -> depthN x <= f)%nat -> placeOf path <> Jobs ->
  wfV (VList l) -> wfV (VList l') -> plainV (VList l) -> plainV (VList l') ->
  regular (placeOf path) (VList l) -> regular (placeOf path) (VList l') ->
  (capp (listLoopA (compareF f) l 0 l' path) (listLoopB l' 0 (length l) path) = COk [] <->
   matches (placeOf path) (VList l) (VList l')).
Proof.
  intros D NJ W W' P P' R R'. apply wf_list in W. apply wf_list in W'. rewrite plain_list in P, P'.
  rewrite Forall_forall in W, W'.
  assert (RL : distinct_names l /\ forall y, In y l -> regular Inside (val y)).
  { inversion R as [? ? N1 N2| |? ? Q1 Q2 _]; subst; [destruct (N1 l); reflexivity|]. rewrite Forall_forall in Q2. auto. }
  assert (RL' : distinct_names l' /\ forall y, In y l' -> regular Inside (val y)).
  { inversion R' as [? ? N1 N2| |? ? Q1 Q2 _]; subst; [destruct (N1 l'); reflexivity|]. rewrite Forall_forall in Q2. auto. }
  destruct RL as [DN RL], RL' as [DN' RL'].
  (* comparing an element with a partner under a name or under an index *)
  assert (EN : forall x y s, In x l -> In y l' -> named x s -> named y s ->
     (compareF f x y (path ++ [s]) = COk [] <-> matches Inside (val x) (val y))).
  { intros x y s Hx Hy Nx Ny. destruct (named_val _ _ Nx) as [mx Ex]. destruct (named_val _ _ Ny) as [my Ey].
    assert (B : below (placeOf path) s <> Root) by apply below_notroot.
    rewrite IH; auto; rewrite ?placeOf_below, ?Ex, ?Ey.
    - split; apply matches_place; auto; discriminate.
    - apply (regular_place Inside); auto; [discriminate|]. rewrite <- Ex. auto.
    - apply (regular_place Inside); auto; [discriminate|]. rewrite <- Ey. auto. }
  assert (EI : forall x y i, In x l -> In y l' ->
     (compareF f x y (path ++ [indexKey i]) = COk [] <-> matches Inside (val x) (val y))).
  { intros x y i Hx Hy. rewrite IH; auto; rewrite placeOf_below, below_index; auto. reflexivity. }
  rewrite capp_nil, listLoopA_nil, listLoopB_nil. cbn [Nat.add]. split.
  - intros [HA HB].
    assert (N1 : forall x s, In x l -> named x s -> exists y, In y l' /\ named y s /\ matches Inside (val x) (val y)).
    { intros x s Hx Nx. apply In_nth_error in Hx. destruct Hx as [j Hj]. pose proof (nth_error_In _ _ Hj) as Hx.
      destruct (HA j x Hj) as [y [F1 F2]]. unfold findByNameOrIndex in F1, F2.
      rewrite (proj2 (findName_spec _ _) Nx) in F1, F2.
      pose proof (findByName_spec s l') as FB. destruct (findByName s l') as [y'|].
      - cbn [fst snd] in F1, F2. injection F1 as ->. destruct FB as [Hy Ny]. exists y.
        split; [exact Hy|]. split; [exact Ny|]. apply (EN x y s Hx Hy Nx Ny). exact F2.
      - cbn [fst snd] in F1, F2. pose proof (nth_error_In _ _ F1) as Hy.
        apply (EI x y j Hx Hy) in F2. exfalso. apply (FB y Hy).
        eapply matches_named; [apply wf_sorted; apply (W x Hx)|apply wf_sorted; apply (W' y Hy)|exact F2|exact Nx]. }
    assert (N2 : forall i x, nth_error l i = Some x -> unnamed x ->
        exists y, nth_error l' i = Some y /\ matches Inside (val x) (val y)).
    { intros i x Hi Ux. pose proof (nth_error_In _ _ Hi) as Hx.
      destruct (HA i x Hi) as [y [F1 F2]]. unfold findByNameOrIndex in F1, F2.
      rewrite (proj2 (findName_none _) Ux) in F1, F2. cbn [fst snd] in F1, F2. exists y. split; [exact F1|].
      apply (EI x y i Hx (nth_error_In _ _ F1)). exact F2. }
    apply M_list; auto. apply Nat.le_antisymm.
    + apply (pigeon (fun j k => exists x y, nth_error l j = Some x /\ nth_error l' k = Some y /\
               ((exists s, named x s /\ named y s) \/ (unnamed x /\ unnamed y /\ j = k)))).
      * intros j j' k [x [y [Hx [Hy C]]]] [x' [y' [Hx' [Hy' C']]]]. assert (y' = y) by congruence. subst y'.
        destruct C as [[s [Nx Ny]]|[Ux [Uy ->]]], C' as [[s' [Nx' Ny']]|[Ux' [Uy' ->]]]; auto.
        -- assert (s' = s) by (apply (named_fun y); assumption). subst s'. apply (DN j j' x x' s); assumption.
        -- destruct (Uy' _ Ny).
        -- destruct (Uy _ Ny').
      * intros j Hj. destruct (nth_error l j) as [x|] eqn:Hx; [|apply nth_error_None in Hx; lia].
        pose proof (nth_error_In _ _ Hx) as Ix.
        destruct (named_dec x) as [[s Nx]|Ux].
        -- destruct (N1 x s Ix Nx) as [y [Iy [Ny _]]].
           apply In_nth_error in Iy. destruct Iy as [k Hk]. exists k. split; [apply nth_error_Some; congruence|].
           exists x, y. eauto 8.
        -- destruct (N2 j x Hx Ux) as [y [Hy My]]. exists j. split; [apply nth_error_Some; congruence|].
           exists x, y. repeat split; auto. right. repeat split; auto.
           eapply matches_unnamed; [apply wf_sorted; apply (W x Ix)|apply wf_sorted; apply (W' y (nth_error_In _ _ Hy))|exact My|exact Ux].
    + destruct HB as [->|HB]; [apply Nat.le_0_l|exact HB].
  - intro M. inversion M as [? ? ? N1 N2 _| |? ? ? NJ' L H1 H2|? ? L H1 HJ|]; subst.
    + destruct (N1 l). reflexivity.
    + split; [|right; lia]. intros j x Hj. pose proof (nth_error_In _ _ Hj) as Hx.
      unfold findByNameOrIndex. destruct (named_dec x) as [[s Nx]|Ux].
      * rewrite (proj2 (findName_spec _ _) Nx). destruct (H1 x s Hx Nx) as [y [Hy [Ny My]]].
        pose proof (findByName_spec s l') as FB. destruct (findByName s l') as [y'|].
        -- destruct FB as [Hy' Ny']. assert (y' = y) by (apply (distinct_eq l' y' y s); assumption). subst y'.
           exists y. split; [reflexivity|]. apply (EN x y s Hx Hy Nx Ny). exact My.
        -- destruct (FB y Hy Ny).
      * rewrite (proj2 (findName_none _) Ux). destruct (H2 j x Hj Ux) as [y [Hy My]]. exists y. split; [exact Hy|].
        apply (EI x y j Hx (nth_error_In _ _ Hy)). exact My.
    + congruence.
Qed.

Lemma main_jobs l l' path : (forall x, In x l -> depthN x <= f)%nat -> path = ["jobs"] ->
  wfV (VList l) -> wfV (VList l') -> plainV (VList l) -> plainV (VList l') ->
  regular Jobs (VList l) -> regular Jobs (VList l') ->
  (compareJobs (compareF f) l l' path = COk [] <-> matches Jobs (VList l) (VList l')).
Proof.
  intros D EP W W' P P' R R'. apply wf_list in W. apply wf_list in W'. rewrite plain_list in P, P'.
  rewrite Forall_forall in W, W'.
  assert (RL : distinct_names l /\ (forall y, In y l -> regular Inside (val y)) /\ Forall (fun n => exists s, named n s) l).
  { inversion R as [? ? N1 N2| |? ? Q1 Q2 Q3]; subst; [destruct (N1 l); reflexivity|]. rewrite Forall_forall in Q2. auto. }
  assert (RL' : distinct_names l' /\ (forall y, In y l' -> regular Inside (val y)) /\ Forall (fun n => exists s, named n s) l').
  { inversion R' as [? ? N1 N2| |? ? Q1 Q2 Q3]; subst; [destruct (N1 l'); reflexivity|]. rewrite Forall_forall in Q2. auto. }
  destruct RL as [DN [RL FN]], RL' as [DN' [RL' FN']].
  unfold compareJobs, jobMap.
  destruct (jobMap_loop_spec l 0 [] I FN) as [m1 [-> [S1 [K1 G1]]]].
  destruct (jobMap_loop_spec l' 0 [] I FN') as [m2 [-> [S2 [K2 G2]]]].
  rewrite compareMap_nil by exact S1.
  assert (KE1 : forall k, In k (mkeys m1) <-> exists y, In y l /\ named y k) by (intro k; rewrite K1; cbn; tauto).
  assert (KE2 : forall k, In k (mkeys m2) <-> exists y, In y l' /\ named y k) by (intro k; rewrite K2; cbn; tauto).
  assert (GE1 : forall k z, mget k m1 = Some z -> exists j y, nth_error l j = Some y /\ named y k /\ z = indexed y (Z.of_nat j)).
  { intros k z Hz. destruct (G1 k z Hz) as [H|[H _]]; [exact H|discriminate]. }
  assert (GE2 : forall k z, mget k m2 = Some z -> exists j y, nth_error l' j = Some y /\ named y k /\ z = indexed y (Z.of_nat j)).
  { intros k z Hz. destruct (G2 k z Hz) as [H|[H _]]; [exact H|discriminate]. }
  rewrite Forall_forall in FN, FN'.
  assert (E : forall x y mx my k i j, In x l -> In y l' -> named x k -> named y k -> val x = VMap mx -> val y = VMap my ->
     (compareF f (indexed x (Z.of_nat i)) (indexed y (Z.of_nat j)) (path ++ [k]) = COk [] <->
      i = j /\ matches Inside (VMap (mdel "index" mx)) (VMap (mdel "index" my)))).
  { intros x y mx my k i j Hx Hy Nx Ny Ex Ey.
    assert (V1 : val (indexed x (Z.of_nat i)) = VMap (mset "index" (newNode (VInt (Z.of_nat i)) (src x)) mx))
      by (unfold indexed; rewrite Ex; reflexivity).
    assert (V2 : val (indexed y (Z.of_nat j)) = VMap (mset "index" (newNode (VInt (Z.of_nat j)) (src y)) my))
      by (unfold indexed; rewrite Ey; reflexivity).
    pose proof (W _ Hx) as Wx. apply wfN_val in Wx. rewrite Ex in Wx. apply wfm in Wx. destruct Wx as [Sx Wx].
    pose proof (W' _ Hy) as Wy. apply wfN_val in Wy. rewrite Ey in Wy. apply wfm in Wy. destruct Wy as [Sy Wy].
    pose proof (P _ Hx) as Px. rewrite Ex, plain_map in Px. pose proof (P' _ Hy) as Py. rewrite Ey, plain_map in Py.
    pose proof (RL _ Hx) as Rx. rewrite Ex in Rx. pose proof (RL' _ Hy) as Ry. rewrite Ey in Ry.
    assert (PL : placeOf (path ++ [k]) = Inside) by (rewrite EP; reflexivity).
    rewrite IH; rewrite ?PL, ?V1, ?V2.
    - split.
      + intro M. inversion M as [? ? ? N1 N2 _|? ? ? K H| | |]; subst; [destruct (N2 (mset "index" (newNode (VInt (Z.of_nat i)) (src x)) mx)); reflexivity|].
        split.
        * specialize (H "index" (newNode (VInt (Z.of_nat i)) (src x)) (newNode (VInt (Z.of_nat j)) (src y))
            (mget_In _ _ _ (mget_mset_same _ _ _)) (mget_In _ _ _ (mget_mset_same _ _ _))).
          inversion H as [? ? ? _ _ SD| | | |]; subst. inversion SD. lia.
        * apply M_map.
          -- intro k'. rewrite !mdel_keys. specialize (K k'). rewrite !mkeys_mset in K. tauto.
          -- intros k' x' y' Hx' Hy'. apply mdel_in in Hx'. apply mdel_in in Hy'. destruct Hx' as [Hk Hx'], Hy' as [_ Hy'].
             apply (H k' x' y'); apply in_mset_other; assumption.
      + intros [-> M]. inversion M as [? ? ? N1 N2 _|? ? ? K H| | |]; subst; [destruct (N2 (mdel "index" mx)); reflexivity|].
        apply M_map.
        * intro k'. rewrite !mkeys_mset. specialize (K k'). rewrite !mdel_keys in K.
          destruct (String.eqb_spec k' "index") as [->|Hk]; tauto.
        * intros k' x' y' Hx' Hy'. apply mset_in in Hx'; [|exact Sx]. apply mset_in in Hy'; [|exact Sy].
          destruct Hx' as [[-> ->]|[Hk Hx']].
          -- destruct Hy' as [[_ ->]|[Hk _]]; [|contradiction]. cbn. apply M_scalar; try discriminate. constructor.
          -- destruct Hy' as [[-> _]|[_ Hy']]; [contradiction|]. apply (H k'); apply mdel_in; auto.
    - assert (C : exists c, In ("name", c) mx).
      { destruct Nx as [m0 [c [E0 [_ [_ [E3 _]]]]]]. rewrite Ex in E0. injection E0 as <-. exists c. apply mget_In. exact E3. }
      destruct C as [c Hc]. pose proof (D _ Hx) as Dx. rewrite (node_eta x), Ex in Dx.
      assert (D1 : forall k' x', In (k', x') mx -> (depthN x' < f)%nat).
      { intros k' x' H'. pose proof (depth_map mx (ann x) (src x) (tmpl x) (resolver x) k' x' H'). lia. }
      assert (1 <= depthN c)%nat by (destruct c as [[] ? ? ? ?]; cbn; lia).
      pose proof (D1 _ _ Hc). rewrite (node_eta (indexed x (Z.of_nat i))), V1. apply depth_map_le; [|lia].
      intros k' x' H'. apply mset_in in H'; [|exact Sx]. destruct H' as [[-> ->]|[_ H']]; [cbn; lia|eauto].
    - apply wfN_val. rewrite V1. apply wfm. split; [apply msorted_mset; exact Sx|].
      intros k' x' H'. apply mset_in in H'; [|exact Sx]. destruct H' as [[-> ->]|[_ H']]; [exact I|eauto].
    - apply wfN_val. rewrite V2. apply wfm. split; [apply msorted_mset; exact Sy|].
      intros k' x' H'. apply mset_in in H'; [|exact Sy]. destruct H' as [[-> ->]|[_ H']]; [exact I|eauto].
    - apply plain_map. intros k' x' H'. apply mset_in in H'; [|exact Sx]. destruct H' as [[-> ->]|[_ H']]; [constructor|eauto].
    - apply plain_map. intros k' x' H'. apply mset_in in H'; [|exact Sy]. destruct H' as [[-> ->]|[_ H']]; [constructor|eauto].
    - apply RG_map. intros k' x' H'. apply mset_in in H'; [|exact Sx]. destruct H' as [[-> ->]|[_ H']]; [apply RG_scalar; discriminate|].
      inversion Rx as [? ? N1 N2|? ? Q|]; subst; [destruct (N2 mx); reflexivity|]. apply (Q _ _ H').
    - apply RG_map. intros k' x' H'. apply mset_in in H'; [|exact Sy]. destruct H' as [[-> ->]|[_ H']]; [apply RG_scalar; discriminate|].
      inversion Ry as [? ? N1 N2|? ? Q|]; subst; [destruct (N2 my); reflexivity|]. apply (Q _ _ H'). }
  split.
  - intros [K H].
    assert (X : forall i x k, nth_error l i = Some x -> named x k -> exists y, nth_error l' i = Some y /\ named y k /\
                exists mx my, val x = VMap mx /\ val y = VMap my /\ matches Inside (VMap (mdel "index" mx)) (VMap (mdel "index" my))).
    { intros i x k Hi Nx. pose proof (nth_error_In _ _ Hi) as Hx.
      assert (Kk : In k (mkeys m1)) by (apply KE1; eauto).
      pose proof (proj1 (K k) Kk) as Kk2. apply key_mget in Kk. apply key_mget in Kk2. destruct Kk as [z1 Z1], Kk2 as [z2 Z2].
      pose proof (H k z1 z2 (mget_In _ _ _ Z1) Z2) as C.
      destruct (GE1 _ _ Z1) as [i' [x' [Hi' [Nx' ->]]]]. destruct (GE2 _ _ Z2) as [j [y [Hj [Ny ->]]]].
      pose proof (DN i' i x' x k Hi' Hi Nx' Nx) as Ei. subst i'. assert (x' = x) by congruence. subst x'.
      destruct (named_val _ _ Nx) as [mx Ex]. destruct (named_val _ _ Ny) as [my Ey].
      apply (E x y mx my k i j Hx (nth_error_In _ _ Hj) Nx Ny Ex Ey) in C. destruct C as [<- M].
      exists y. repeat split; auto. exists mx, my. auto. }
    assert (X2 : forall i y, nth_error l' i = Some y -> exists x, nth_error l i = Some x).
    { intros i y Hi. pose proof (nth_error_In _ _ Hi) as Hy. destruct (FN' _ Hy) as [k Ny].
      assert (Kk : In k (mkeys m2)) by (apply KE2; eauto). apply K, KE1 in Kk. destruct Kk as [x [Hx Nx]].
      apply In_nth_error in Hx. destruct Hx as [i' Hi']. destruct (X i' x k Hi' Nx) as [y' [Hy' [Ny' _]]].
      pose proof (DN' i' i y' y k Hy' Hi Ny' Ny). subst i'. eauto. }
    assert (LEN : length l = length l').
    { apply Nat.le_antisymm.
      - destruct (length l) as [|n] eqn:L; [lia|]. destruct (nth_error l n) as [x|] eqn:Hn; [|apply nth_error_None in Hn; lia].
        destruct (FN x (nth_error_In _ _ Hn)) as [k Nx]. destruct (X n x k Hn Nx) as [y [Hy _]].
        assert (nth_error l' n <> None) by congruence. apply nth_error_Some in H0. lia.
      - destruct (length l') as [|n] eqn:L; [lia|]. destruct (nth_error l' n) as [y|] eqn:Hn; [|apply nth_error_None in Hn; lia].
        destruct (X2 n y Hn) as [x Hx]. assert (nth_error l n <> None) by congruence. apply nth_error_Some in H0. lia. }
    apply M_jobs; [exact LEN|]. intros i x y Hx Hy. destruct (FN x (nth_error_In _ _ Hx)) as [k Nx].
    destruct (X i x k Hx Nx) as [y' [Hy' [Ny [mx [my [Ex [Ey M]]]]]]]. assert (y' = y) by congruence. subst y'.
    exists mx, my, k. auto.
  - intro M. inversion M as [? ? ? N1 N2 _| |? ? ? NJ' L H1 H2|? ? L HJ|]; subst; [destruct (N1 l); reflexivity|congruence|].
    assert (Y : forall i x, nth_error l i = Some x -> exists y, nth_error l' i = Some y).
    { intros i x Hi. destruct (nth_error l' i) as [y|] eqn:Hy; [eauto|]. apply nth_error_None in Hy.
      assert (nth_error l i <> None) by congruence. apply nth_error_Some in H. lia. }
    assert (Y' : forall i x, nth_error l' i = Some x -> exists y, nth_error l i = Some y).
    { intros i x Hi. destruct (nth_error l i) as [y|] eqn:Hy; [eauto|]. apply nth_error_None in Hy.
      assert (nth_error l' i <> None) by congruence. apply nth_error_Some in H. lia. }
    split.
    + intro k. rewrite KE1, KE2. split.
      * intros [x [Hx Nx]]. apply In_nth_error in Hx. destruct Hx as [i Hi]. destruct (Y i x Hi) as [y Hy].
        destruct (HJ i x y Hi Hy) as [mx [my [s [_ [_ [Nx' [Ny _]]]]]]]. exists y. split; [apply (nth_error_In _ _ Hy)|].
        rewrite (named_fun x k s Nx Nx'). exact Ny.
      * intros [y [Hy Ny]]. apply In_nth_error in Hy. destruct Hy as [i Hi]. destruct (Y' i y Hi) as [x Hx].
        destruct (HJ i x y Hx Hi) as [mx [my [s [_ [_ [Nx' [Ny' _]]]]]]]. exists x. split; [apply (nth_error_In _ _ Hx)|].
        rewrite (named_fun y k s Ny Ny'). exact Nx'.
    + intros k z1 z2 Hz1 Hz2. apply In_mget in Hz1; [|apply msorted_NoDup; exact S1].
      destruct (GE1 _ _ Hz1) as [i [x [Hi [Nx ->]]]]. destruct (GE2 _ _ Hz2) as [j [y [Hj [Ny ->]]]].
      destruct (Y i x Hi) as [y' Hy']. destruct (HJ i x y' Hi Hy') as [mx [my [s [Ex [Ey [Nx' [Ny' Mm]]]]]]].
      assert (s = k) by (apply (named_fun x); assumption). subst s.
      pose proof (DN' i j y' y k Hy' Hj Ny' Ny). subst j. assert (y' = y) by congruence. subst y'.
      apply (E x y mx my k i i (nth_error_In _ _ Hi) (nth_error_In _ _ Hj) Nx Ny Ex Ey). auto.
Qed.
End Main.

Lemma compareF_matches f : forall a b path, (depthN a <= f)%nat -> wfN a -> wfN b -> plainV (val a) -> plainV (val b) ->
  regular (placeOf path) (val a) -> regular (placeOf path) (val b) ->
  (compareF f a b path = COk [] <-> matches (placeOf path) (val a) (val b)).
Proof.
  induction f as [|f IH]; intros a b path D Wa Wb Pa Pb Ra Rb.
  { exfalso. assert (1 <= depthN a)%nat by (destruct a as [[] ? ? ? ?]; cbn; lia). lia. }
  apply wfN_val in Wa. apply wfN_val in Wb. cbn [compareF].
  assert (SC : forall v, val a = v -> (forall l, v <> VList l) -> (forall m, v <> VMap m) ->
     ((if deepEqV v (val b) then COk [] else COk [mkDiff (Some a) (Some b) path]) = COk [] <-> matches (placeOf path) v (val b))).
  { intros v Ev N1 N2. rewrite Ev in Pa. pose proof (scalar_eq v (val b) Pa Pb N1 N2) as E.
    destruct (deepEqV v (val b)).
    - split; [|reflexivity]. intros _. apply M_scalar; tauto.
    - split; [discriminate|]. intro M. inversion M as [? ? ? _ _ SD|? m ? K R|? l|l|? m l]; subst.
      + apply E in SD. discriminate.
      + destruct (N2 m). congruence.
      + destruct (N1 l). congruence.
      + destruct (N1 l). congruence.
      + destruct (N2 m). congruence. }
  destruct (val a) as [|xb|xi|xg|xf|xs|l|m|xe|? ? ? ? ?|? ? ? ?] eqn:Ea; try (inversion Pa; fail);
    try (apply (SC _ eq_refl); discriminate).
  - (* list *)
    assert (Dl : forall x, In x l -> (depthN x <= f)%nat).
    { intros x Hx. rewrite (node_eta a), Ea in D. pose proof (depth_list l (ann a) (src a) (tmpl a) (resolver a) x Hx). lia. }
    destruct (val b) as [|yb|yi|yg|yf|ys|l'|m'|ye|? ? ? ? ?|? ? ? ?] eqn:Eb; try (inversion Pb; fail);
      try (split; [discriminate|intro M; inversion M as [? ? ? N1 N2 _| | | |]; subst; destruct (N1 l); reflexivity]).
    unfold compareList.
    destruct (match path with [s] => String.eqb s "jobs" | _ => false end) eqn:EJ.
    + assert (EP : path = ["jobs"]).
      { destruct path as [|s [|? ?]]; try discriminate. apply String.eqb_eq in EJ. subst. reflexivity. }
      rewrite EP in *. cbn [placeOf String.eqb Ascii.eqb Bool.eqb] in *. apply main_jobs; auto.
    + apply main_list; auto. destruct path as [|s [|? ?]]; cbn; try discriminate. rewrite EJ. discriminate.
  - (* map *)
    assert (Dm : forall k x, In (k, x) m -> (depthN x <= f)%nat).
    { intros k x Hx. rewrite (node_eta a), Ea in D. pose proof (depth_map m (ann a) (src a) (tmpl a) (resolver a) k x Hx). lia. }
    destruct (val b) as [|yb|yi|yg|yf|ys|l'|m'|ye|? ? ? ? ?|? ? ? ?] eqn:Eb; try (inversion Pb; fail);
      try (split; [discriminate|intro M; inversion M as [? ? ? N1 N2 _| | | |]; subst; destruct (N2 m); reflexivity]).
    + rewrite <- (main_named f IH m l' path) by auto. destruct (listToMap l'); [reflexivity|]. split; [discriminate|tauto].
    + apply main_map; auto.
Qed.

(* ------------------------------------------------------------------ *)
(** * C08 *)

(** C08: no difference is reported exactly if the documents match (up to the
    order of named list elements). *)
Theorem C08_empty_iff_partial : forall a b, wfN a -> wfN b -> plainV (val a) -> plainV (val b) ->
  regular Root (val a) -> regular Root (val b) ->
  (Compare a b = COk [] <-> matches Root (val a) (val b)).
Proof. intros a b Wa Wb Pa Pb Ra Rb. apply (compareF_matches (depthN a) a b []); auto. Qed.

(** the same data always match *)
Lemma same_named x y s : wfN x -> wfN y -> same_data (val x) (val y) -> named x s -> named y s.
Proof.
  intros Wx Wy SD [m [c [E [E1 [E2 [E3 E4]]]]]]. rewrite E in SD. inversion SD as [| | | | | | |? m' K R]; subst.
  assert (Ey : val y = VMap m') by congruence. exists m'.
  assert (NK : forall k, mget k m = None -> mget k m' = None).
  { intros k Hk. apply mget_None. apply mget_None in Hk. rewrite <- K. exact Hk. }
  destruct (key_mget "name" m') as [d Ed]. { apply K. apply mget_Some_key in E3. exact E3. }
  exists d. repeat split; auto. specialize (R "name" c d (mget_In _ _ _ E3) (mget_In _ _ _ Ed)). rewrite E4 in R. inversion R. congruence.
Qed.
Lemma same_matches a : wfN a -> forall b w, wfN b -> regular w (val a) -> same_data (val a) (val b) -> matches w (val a) (val b).
Proof.
  induction a as [v an s t r IH] using node_indT. intros Wa [v' an' s' t' r'] w Wb R SD.
  apply wfN_val in Wa. apply wfN_val in Wb. cbn [val] in *.
  destruct SD as [|x|x|x|x y E|x|l l' F|m m' K SD]; try (apply M_scalar; [discriminate|discriminate|constructor; assumption]);
    try (apply M_scalar; [discriminate|discriminate|constructor]).
  - apply wf_list in Wa. apply wf_list in Wb. rewrite Forall_forall in Wa, Wb. cbn [node_subT] in IH. rewrite Forall_forall in IH.
    inversion R as [? ? N1 N2| |? ? DN RL RJ]; subst; [destruct (N1 l); reflexivity|]. rewrite Forall_forall in RL.
    assert (P : forall i x, nth_error l i = Some x -> exists y, nth_error l' i = Some y /\ same_data (val x) (val y)).
    { clear -F. induction F as [|x y l l' H _ IHF]; intros [|i] z Hz; try discriminate; cbn in *.
      - injection Hz as <-. eauto.
      - apply IHF. exact Hz. }
    assert (L : length l = length l') by (apply Forall2_len in F; exact F).
    destruct w as [| |].
    1, 3: apply M_list; [discriminate|exact L| |];
      [intros x s0 Hx Nx; apply In_nth_error in Hx; destruct Hx as [i Hi]; destruct (P i x Hi) as [y [Hy SD]]; exists y;
       pose proof (nth_error_In _ _ Hi); pose proof (nth_error_In _ _ Hy);
       split; [assumption|]; split; [eapply same_named; eauto|apply IH; auto]
      |intros i x Hi _; destruct (P i x Hi) as [y [Hy SD]]; exists y; split; [exact Hy|];
       pose proof (nth_error_In _ _ Hi); pose proof (nth_error_In _ _ Hy); apply IH; auto].
    specialize (RJ eq_refl). rewrite Forall_forall in RJ. apply M_jobs; [exact L|].
    intros i x y Hx Hy. destruct (P i x Hx) as [y' [Hy' SD]]. assert (y' = y) by congruence. subst y'.
    pose proof (nth_error_In _ _ Hx) as Ix. pose proof (nth_error_In _ _ Hy) as Iy.
    destruct (RJ x Ix) as [k Nx]. pose proof (same_named x y k (Wa _ Ix) (Wb _ Iy) SD Nx) as Ny.
    destruct (named_val _ _ Nx) as [mx Ex]. destruct (named_val _ _ Ny) as [my Ey]. exists mx, my, k. repeat split; auto.
    pose proof (IH x Ix (Wa _ Ix) y Inside (Wb _ Iy) (RL _ Ix) SD) as M. rewrite Ex, Ey in M.
    inversion M as [? ? ? N1 N2 _|? ? ? K H| | |]; subst; [destruct (N2 mx); reflexivity|].
    apply M_map.
    + intro k'. rewrite !mdel_keys, K. reflexivity.
    + intros k' x' y' Hxx Hyy. apply mdel_in in Hxx. apply mdel_in in Hyy. apply H; tauto.
  - apply wfm in Wa. apply wfm in Wb. destruct Wa as [_ Wa], Wb as [_ Wb]. cbn [node_subT] in IH. rewrite Forall_forall in IH.
    inversion R as [? ? N1 N2|? ? RM|]; subst; [destruct (N2 m); reflexivity|].
    apply M_map; [exact K|]. intros k x y Hx Hy. apply (IH _ Hx); eauto.
Qed.

(** C08: equivalent documents have no difference; in particular a document has
    no difference to itself (unless it contains NaN) *)
Theorem C08_equivalent : forall a b, wfN a -> wfN b -> plainV (val a) -> plainV (val b) ->
  regular Root (val a) -> regular Root (val b) -> equivN a b = true -> Compare a b = COk [].
Proof.
  intros a b Wa Wb Pa Pb Ra Rb E. apply C08_empty_iff_partial; auto.
  apply same_matches; auto. apply C07_characterized; auto.
Qed.
Theorem C08_self : forall a, wfN a -> plainV (val a) -> nanfreeN a -> regular Root (val a) -> Compare a a = COk [].
Proof. intros a W P N R. apply C08_equivalent; auto. apply C07_reflexive; auto. Qed.

(** a whole stream *)
Theorem C08_stream : forall l l',
  (forall a, In a (l ++ l') -> wfN a /\ plainV (val a) /\ regular Root (val a)) ->
  (noDifferences l l' = Some true <-> Forall2 (fun a b => matches Root (val a) (val b)) l l').
Proof.
  intros l l' H. unfold noDifferences. destruct (Nat.eqb (length l) (length l')) eqn:L.
  - apply Nat.eqb_eq in L. revert l' H L. induction l as [|a l IH]; intros [|b l'] H L; try discriminate.
    + split; [constructor|reflexivity].
    + cbn [combine diffDocs]. injection L as L.
      destruct (H a) as [Wa [Pa Ra]]; [left; reflexivity|].
      destruct (H b) as [Wb [Pb Rb]]; [apply in_app_iff; right; left; reflexivity|].
      assert (HI : forall a0, In a0 (l ++ l') -> wfN a0 /\ plainV (val a0) /\ regular Root (val a0)).
      { intros a0 Ha. apply H. apply in_app_iff in Ha. cbn. rewrite in_app_iff. cbn. tauto. }
      specialize (IH l' HI L). pose proof (C08_empty_iff_partial a b Wa Wb Pa Pb Ra Rb) as E.
      destruct (Compare a b) as [d| |].
      * destruct (diffDocs (combine l l')) as [r|]; cbn [option_map].
        -- destruct d as [|x d]; cbn [andb].
           ++ rewrite IH. split; [intro X; constructor; tauto|intro X; inversion X; subst; assumption].
           ++ split; [discriminate|]. intro X. inversion X; subst. assert (COk (x :: d) = COk []) by tauto. discriminate.
        -- split; [discriminate|]. intro X. inversion X; subst. destruct IH as [_ IH]. discriminate IH. assumption.
      * split; [discriminate|]. intro X. inversion X; subst. assert (CPanic = COk []) by tauto. discriminate.
      * split; [discriminate|]. intro X. inversion X; subst. assert (CFuel = COk []) by tauto. discriminate.
  - split; [discriminate|]. intro F. apply Forall2_len in F. apply Nat.eqb_neq in L. contradiction.
Qed.

(** What is not true without the regularity conditions: with duplicate names
    different documents have no difference and a document differs from itself; a
    map equals a named list but not vice versa; a job without a name crashes; the
    index entry of jobs is ignored. *)
Definition nm (s : string) (extra : list (string * node)) : node := newNode (VMap (mof (("name", newNode (VStr s) "") :: extra))) "".
Theorem C08_duplicates_refuted :
  let i z := newNode (VInt z) "" in
  Compare (newNode (VList [nm "x" []; nm "x" []]) "") (newNode (VList [nm "x" []; nm "y" []]) "") = COk [] /\
  exists d, Compare (newNode (VList [nm "x" [("v", i 1)]; nm "x" [("v", i 2)]]) "")
                    (newNode (VList [nm "x" [("v", i 1)]; nm "x" [("v", i 2)]]) "") = COk [d].
Proof. split; [reflexivity|]. eexists. reflexivity. Qed.
Theorem C08_map_list_refuted :
  let m := newNode (VMap [("x", newNode (VMap []) "")]) "" in
  Compare m (newNode (VList [nm "x" []]) "") = COk [] /\ Compare (newNode (VList [nm "x" []]) "") m <> COk [].
Proof. split; [reflexivity|discriminate]. Qed.
Theorem C08_jobs_refuted :
  let doc l := newNode (VMap [("jobs", newNode (VList l) "")]) "" in
  Compare (doc [newNode (VMap []) ""]) (doc []) = CPanic /\
  Compare (doc [nm "x" [("index", newNode (VInt 5) "")]]) (doc [nm "x" [("index", newNode (VInt 7) "")]]) = COk [].
Proof. split; reflexivity. Qed.

(** non-vacuity: a regular document with named lists and jobs, in another order *)
Example C08_case :
  let l1 := newNode (VList [nm "x" [("v", newNode (VInt 1) "")]; nm "y" []]) "" in
  let l2 := newNode (VList [nm "y" []; nm "x" [("v", newNode (VInt 1) "")]]) "" in
  let a := newNode (VMap [("jobs", l1); ("list", l1)]) "" in
  let b := newNode (VMap [("jobs", l1); ("list", l2)]) "" in
  regular Root (val a) /\ regular Root (val b) /\ Compare a b = COk [] /\ Compare a (newNode (VMap [("jobs", l2); ("list", l1)]) "") <> COk [].
Proof.
  cbv zeta.
  assert (DX : forall n s m, val n = VMap m -> named n s -> exists c, mget "name" m = Some c /\ val c = VStr s).
  { intros n s m E [m' [c [E' [_ [_ [E3 E4]]]]]]. assert (m' = m) by congruence. subst. eauto. }
  assert (NX : forall s extra s', named (nm s extra) s' -> mget "name" (mof (("name", newNode (VStr s) "") :: extra)) = Some (newNode (VStr s) "") -> s = s').
  { intros s extra s' H E. destruct (DX (nm s extra) s' (mof (("name", newNode (VStr s) "") :: extra)) eq_refl H) as [c [E1 E2]]. rewrite E in E1. injection E1 as <-. cbn in E2. congruence. }
  assert (RS : forall w s, regular w (VStr s)) by (intros; apply RG_scalar; discriminate).
  assert (RI : forall w s, regular w (VInt s)) by (intros; apply RG_scalar; discriminate).
  assert (R1 : forall w, regular w (val (nm "x" [("v", newNode (VInt 1) "")]))).
  { intro w. apply RG_map. intros k x Hx. cbn in Hx. destruct Hx as [H|[H|[]]]; injection H as <- <-; (apply RS || apply RI). }
  assert (R2 : forall w, regular w (val (nm "y" []))).
  { intro w. apply RG_map. intros k x Hx. cbn in Hx. destruct Hx as [H|[]]; injection H as <- <-; apply RS. }
  assert (N1 : named (nm "x" [("v", newNode (VInt 1) "")]) "x") by (eexists; eexists; repeat split).
  assert (N2 : named (nm "y" []) "y") by (eexists; eexists; repeat split).
  assert (L1 : forall w, regular w (VList [nm "x" [("v", newNode (VInt 1) "")]; nm "y" []])).
  { intro w. apply RG_list; [|apply Forall_cons; [apply R1|apply Forall_cons; [apply R2|apply Forall_nil]]|intros _; apply Forall_cons; [eauto|apply Forall_cons; [eauto|apply Forall_nil]]].
    intros [|[|i]] [|[|j]] x y s Hx Hy Nx Ny; cbn in Hx, Hy; try reflexivity; try (destruct i; discriminate); try (destruct j; discriminate);
      injection Hx as <-; injection Hy as <-; apply NX in Nx; try reflexivity; apply NX in Ny; try reflexivity; congruence. }
  assert (L2 : forall w, regular w (VList [nm "y" []; nm "x" [("v", newNode (VInt 1) "")]])).
  { intro w. apply RG_list; [|apply Forall_cons; [apply R2|apply Forall_cons; [apply R1|apply Forall_nil]]|intros _; apply Forall_cons; [eauto|apply Forall_cons; [eauto|apply Forall_nil]]].
    intros [|[|i]] [|[|j]] x y s Hx Hy Nx Ny; cbn in Hx, Hy; try reflexivity; try (destruct i; discriminate); try (destruct j; discriminate);
      injection Hx as <-; injection Hy as <-; apply NX in Nx; try reflexivity; apply NX in Ny; try reflexivity; congruence. }
  repeat split; try reflexivity; try discriminate.
  - apply RG_map. intros k x [H|[H|[]]]; injection H as <- <-; apply L1.
  - apply RG_map. intros k x [H|[H|[]]]; injection H as <- <-; [apply L1|apply L2].
Qed.

Print Assumptions C08_empty_iff_partial.
Print Assumptions C08_equivalent.
Print Assumptions C08_self.
Print Assumptions C08_stream.
