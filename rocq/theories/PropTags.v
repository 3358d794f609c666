(** C29 tags, C30 document numbers: statements about all histories of operations
    on the tag state. *)
From Coq Require Import Sorting.Sorted Sorting.Permutation Lia DecimalString.
From Verif Require Import Core CoreFacts Str StrFacts Cleanup Tags EquivFacts PropNode PropList.

(** ** Histories *)

(** What happens to the tag state during processing: a tag is set for a node
    (flow.go:38-55 and tagdef.go:19-56, always with the local bit), a document is
    finished (cascade.go:44), the stream is reset (cascade.go:20,28), everything
    is reset (environment.go ResetTags). *)
Inductive op :=
| OpSet (name : string) (n : node) (path : list string) (stream : bool)
| OpPush (doc : option node)
| OpResetStream
| OpResetAll.

Definition step (st : tstate) (o : op) : tstate :=
  match o with
  | OpSet name n p s => fst (setTagS st name n p (mkScopeT true s))
  | OpPush d => pushDocument st d
  | OpResetStream => resetStream st
  | OpResetAll => resetTags st
  end.
Definition run (st : tstate) (h : list op) : tstate := fold_left step h st.
(** the answer of a set operation *)
Definition accepts (st : tstate) (name : string) (n : node) (p : list string) (s : bool) : bool :=
  snd (setTagS st name n p (mkScopeT true s)).

Lemma run_app st h1 h2 : run st (h1 ++ h2) = run (run st h1) h2.
Proof. apply fold_left_app. Qed.

(** ** Invariant *)
Definition tinv (st : tstate) : Prop :=
  msorted (tags st) /\ forall k t, In (k, t) (tags st) -> t_name t = k /\ normName k = k.

Lemma normName_idem s : normName (normName s) = normName s.
Proof.
  unfold normName. rewrite chars_ofchars, map_map. f_equal. apply map_ext. intro c.
  destruct (Ascii.eqb c ":") eqn:E; auto. now rewrite E.
Qed.

Lemma in_mset {A} k v (m : smap A) k' v' : In (k', v') (mset k v m) -> (k' = k /\ v' = v) \/ In (k', v') m.
Proof.
  induction m as [|[k0 v0] m IH]; cbn.
  - intros [E|[]]. injection E. auto.
  - destruct (String.compare k k0); cbn; intros [E|E]; try (injection E; auto); auto.
    destruct (IH E); auto.
Qed.

Lemma in_resetlocal m k t : In (k, t) (map (fun kv : string * tag => (fst kv, resetLocal (snd kv))) m) <->
  exists t0, In (k, t0) m /\ t = resetLocal t0.
Proof.
  rewrite in_map_iff. split.
  - intros [[k0 t0] [E Hi]]. injection E as <- <-. eauto.
  - intros [t0 [Hi ->]]. exists (k, t0). auto.
Qed.

Lemma mget_resetlocal m k : mget k (map (fun kv : string * tag => (fst kv, resetLocal (snd kv))) m) =
  option_map resetLocal (mget k m).
Proof. induction m as [|[k0 t0] m IH]; cbn; auto. destruct (String.eqb k k0); auto. Qed.

Lemma msorted_resetlocal m : msorted m -> msorted (map (fun kv : string * tag => (fst kv, resetLocal (snd kv))) m).
Proof.
  induction m as [|[k0 t0] m IH]; cbn; auto. intros [H1 H2]. split; auto.
  intros k' Hk. apply H1. rewrite map_map in Hk. exact Hk.
Qed.

(** the two ways SetTag can end *)
Definition free_for (st : tstate) (k : string) (p : list string) : bool :=
  match mget k (tags st) with None => true | Some old => isLocal old && path_eqb p (t_path old) end.
Lemma set_eq st name n p sc : setTagS st name n p sc =
  if free_for st (normName name) p
  then (mkTS (mset (normName name) (mkTag (normName name) (dropTags n) p sc) (tags st)) (docno st), true)
  else (st, false).
Proof. reflexivity. Qed.

Lemma tinv_set st name n p sc : tinv st -> tinv (fst (setTagS st name n p sc)).
Proof.
  intros [Hs Hn]. rewrite set_eq. destruct (free_for _ _ _); [|split; auto]. cbn. split.
  - now apply msorted_mset.
  - intros k t Hi. apply in_mset in Hi. destruct Hi as [[-> ->]|Hi]; [|auto]. split; [reflexivity|apply normName_idem].
Qed.

Lemma tinv_resetlocal m d : tinv (mkTS m d) -> tinv (mkTS (map (fun kv => (fst kv, resetLocal (snd kv))) m) (d + 1)).
Proof.
  intros [Hs Hn]. split; cbn in *.
  - now apply msorted_resetlocal.
  - intros k t Hi. apply in_resetlocal in Hi. destruct Hi as [t0 [Hi ->]]. destruct (Hn _ _ Hi). split; auto.
Qed.

Definition kept (m : smap tag) : list (string * tag) :=
  map (fun t => (t_name t, t)) (filter (fun t => negb (isStream t)) (map snd m)).

Lemma in_kept st k t : tinv st -> (In (k, t) (kept (tags st)) <-> In (k, t) (tags st) /\ isStream t = false).
Proof.
  intros [Hs Hn]. unfold kept. rewrite in_map_iff. split.
  - intros [t0 [E Hi]]. injection E as <- ->. apply filter_In in Hi. destruct Hi as [Hi Hst].
    apply in_map_iff in Hi. destruct Hi as [[k0 t1] [E Hi]]. cbn in E. subst t1.
    destruct (Hn _ _ Hi) as [<- _]. split; auto. now destruct (isStream t).
  - intros [Hi Hst]. exists t. destruct (Hn _ _ Hi) as [E _]. split; [now rewrite E|].
    apply filter_In. split; [|now rewrite Hst]. apply in_map_iff. now exists (k, t).
Qed.

Lemma kept_nodup st : tinv st -> NoDup (map fst (kept (tags st))).
Proof.
  intros [Hs Hn]. apply msorted_NoDup in Hs. unfold kept, mkeys in *. revert Hs Hn.
  generalize (tags st) as m. clear. induction m as [|[k t] m IH]; cbn; intros Hnd Hn; [constructor|].
  inversion Hnd; subst. assert (IH' := IH H2 (fun k' t' H' => Hn k' t' (or_intror H'))).
  destruct (isStream t) eqn:E; cbn; auto. constructor; auto.
  intro Hi. apply H1. destruct (Hn k t (or_introl eq_refl)) as [E1 _]. rewrite E1 in Hi.
  rewrite map_map in Hi. apply in_map_iff in Hi. destruct Hi as [t0 [E0 Hi]]. apply filter_In in Hi. destruct Hi as [Hi _].
  apply in_map_iff in Hi. destruct Hi as [[k1 t1] [E2 Hi]]. cbn in E0, E2. subst t1.
  destruct (Hn k1 t0 (or_intror Hi)) as [E3 _]. apply in_map_iff. exists (k1, t0). split; auto. cbn. congruence.
Qed.

Lemma in_resetStream st k t : tinv st -> (In (k, t) (tags (resetStream st)) <-> In (k, t) (tags st) /\ isStream t = false).
Proof. intro Hi. unfold resetStream. cbn. rewrite mof_in by now apply kept_nodup. now apply in_kept. Qed.

Lemma tinv_step st o : tinv st -> tinv (step st o).
Proof.
  intro Hi. destruct o; cbn.
  - now apply tinv_set.
  - unfold pushDocument. destruct doc as [d|].
    + assert (H := tinv_set st (docName (docno st)) d [] (mkScopeT false false) Hi).
      destruct (fst (setTagS _ _ _ _ _)) as [m dn]. now apply tinv_resetlocal.
    + destruct st as [m dn]. now apply tinv_resetlocal.
  - split.
    + unfold resetStream. cbn. apply mof_sorted.
    + intros k t H. apply (proj1 (in_resetStream st k t Hi)) in H. destruct H as [H _].
      destruct Hi as [_ Hn]. now apply Hn.
  - split; cbn; [auto|intros ? ? []].
Qed.

Lemma tinv_run st h : tinv st -> tinv (run st h).
Proof. revert st. induction h as [|o h IH]; cbn; auto. intros st H. apply IH. now apply tinv_step. Qed.
Lemma tinv_new : tinv newTS.
Proof. split; cbn; [auto|intros ? ? []]. Qed.

(** ** C29 *)

(** a name that is not treated as a document number *)
Definition no_doc (name : string) : Prop := hasPrefix (normName name) "doc." = false.
(** two spellings of the same tag name (":" and "." are the same separator) *)
Definition same_name (a b : string) : Prop := normName a = normName b.

Lemma no_doc_get st name : no_doc name -> getTag st name = mget (normName name) (tags st).
Proof. intro H. unfold getTag, tagRef. unfold no_doc in H. rewrite H. reflexivity. Qed.

(** where a single name stands *)
Definition at_name (st : tstate) (k : string) : option tag := mget k (tags st).

Lemma at_set st name n p sc k : at_name (fst (setTagS st name n p sc)) k =
  if String.eqb k (normName name) && free_for st k p
  then Some (mkTag (normName name) (dropTags n) p sc) else at_name st k.
Proof.
  rewrite set_eq. unfold at_name. destruct (String.eqb k (normName name)) eqn:E; cbn [andb].
  - apply String.eqb_eq in E. subst k. destruct (free_for _ _ _); cbn; auto. apply mget_mset_same.
  - destruct (free_for st (normName name) p); cbn; auto. apply mget_mset_other. now apply eqb_false_neq.
Qed.

Lemma at_resetStream st k : tinv st ->
  at_name (resetStream st) k = match at_name st k with
                               | Some t => if isStream t then None else Some t
                               | None => None
                               end.
Proof.
  intro Hi. unfold at_name.
  destruct (mget k (tags (resetStream st))) as [t|] eqn:E.
  - apply mget_In in E. apply (proj1 (in_resetStream st k t Hi)) in E. destruct E as [E Es].
    rewrite (In_mget k t) by (auto; apply msorted_NoDup; apply Hi). now rewrite Es.
  - destruct (mget k (tags st)) as [t|] eqn:E2; auto. destruct (isStream t) eqn:Es; auto.
    apply mget_In in E2. exfalso. apply (proj1 (mget_None k _)) in E. apply E.
    apply in_map_iff. exists (k, t). split; auto. apply (proj2 (in_resetStream st k t Hi)). auto.
Qed.

Lemma normName_app a b : normName (a +++ b) = (normName a +++ normName b)%string.
Proof. unfold normName. rewrite chars_app, map_app. now rewrite ofchars_app. Qed.
Lemma normName_nocolon s : ~ In ":"%char (chars s) -> normName s = s.
Proof.
  intro H. unfold normName. rewrite <- (ofchars_chars s) at 2. f_equal.
  rewrite <- (map_id (chars s)) at 2. apply map_ext_in. intros c Hc.
  destruct (Ascii.eqb_spec c ":"); congruence.
Qed.
Lemma uint_digits u c : In c (chars (NilEmpty.string_of_uint u)) -> isDigit c = true.
Proof. induction u; cbn; intro Hi; [destruct Hi|..]; (destruct Hi as [<-|H]; [reflexivity|auto]). Qed.
Lemma docName_norm i : 1 <= i -> normName (docName i) = docName i.
Proof.
  intro H. unfold docName. rewrite normName_app. f_equal. apply normName_nocolon.
  destruct (itoa_nonneg i) as [u [_ [-> _]]]; [lia|]. intro Hc. apply uint_digits in Hc. discriminate.
Qed.
Lemma docName_prefix i : hasPrefix (docName i) "doc." = true.
Proof. apply hasPrefix_spec. eexists. reflexivity. Qed.

Lemma at_push st d k : 1 <= docno st ->
  at_name (pushDocument st d) k =
  match d with
  | Some n => if String.eqb k (docName (docno st)) && free_for st k []
              then Some (mkTag k (dropTags n) [] (mkScopeT false false))
              else option_map resetLocal (at_name st k)
  | None => option_map resetLocal (at_name st k)
  end.
Proof.
  intro Hd. unfold pushDocument. unfold at_name at 1. cbn [tags]. rewrite mget_resetlocal. destruct d as [n|]; [|reflexivity].
  fold (at_name (fst (setTagS st (docName (docno st)) n [] (mkScopeT false false))) k).
  rewrite at_set, docName_norm by auto.
  destruct (String.eqb k (docName (docno st))) eqn:E; cbn [andb]; auto.
  apply String.eqb_eq in E. subst k. destruct (free_for _ _ _); reflexivity.
Qed.

Lemma docno_step st o : 1 <= docno st -> 1 <= docno (step st o).
Proof.
  destruct o; cbn; intro H; try lia.
  - rewrite set_eq. destruct (free_for _ _ _); auto.
  - unfold pushDocument. destruct doc as [d|]; cbn; [|lia]. rewrite set_eq. destruct (free_for _ _ _); cbn; lia.
Qed.
Lemma docno_run st h : 1 <= docno st -> 1 <= docno (run st h).
Proof. revert st. induction h as [|o h IH]; cbn; auto. intros st H. apply IH. now apply docno_step. Qed.

Lemma path_eqb_spec a b : path_eqb a b = true <-> a = b.
Proof.
  revert b. induction a as [|x a IH]; intros [|y b]; cbn; split; intro H; try congruence; auto.
  - apply andb_prop in H. destruct H as [H1 H2]. apply String.eqb_eq in H1. apply IH in H2. congruence.
  - injection H as -> ->. rewrite String.eqb_refl. now apply IH.
Qed.

(** no operation of the history ends the life of a tag: nothing does it for a
    global tag except the reset of all tags, a stream tag also ends with its stream *)
Definition lives (stream : bool) (h : list op) : Prop :=
  ~ In OpResetAll h /\ (stream = true -> ~ In OpResetStream h).
(** a document has been finished *)
Definition next_document (h : list op) : Prop := exists d, In (OpPush d) h.
(** every later definition of the name stems from another node or another document *)
Definition only_foreign (name : string) (path : list string) (h : list op) : Prop :=
  forall h1 name' n' p' s' h2, h = h1 ++ OpSet name' n' p' s' :: h2 -> same_name name' name ->
    p' <> path \/ next_document h1.

Lemma stays st k n p s h : tinv st -> 1 <= docno st -> hasPrefix k "doc." = false ->
  forall l, at_name st k = Some (mkTag k (dropTags n) p (mkScopeT l s)) ->
  lives s h ->
  (forall h1 name' n' p' s' h2, h = h1 ++ OpSet name' n' p' s' :: h2 -> normName name' = k ->
     p' <> p \/ l = false \/ next_document h1) ->
  exists l', at_name (run st h) k = Some (mkTag k (dropTags n) p (mkScopeT l' s)) /\
             (l' = true <-> l = true /\ ~ next_document h).
Proof.
  intros Hi Hd Hk. revert st Hi Hd. induction h as [|o h IH]; intros st Hi Hd l Ha [L1 L2] Hf; cbn [run fold_left].
  - exists l. split; auto. split; [intro; split; auto; intros [d []]|tauto].
  - assert (Hl : lives s h) by (split; [|intro E]; intro H; [apply L1|apply (L2 E)]; now right).
    assert (Hi' := tinv_step st o Hi). assert (Hd' := docno_step st o Hd).
    assert (Cont : forall l1, at_name (step st o) k = Some (mkTag k (dropTags n) p (mkScopeT l1 s)) ->
       (l1 = true <-> l = true /\ ~ next_document [o]) ->
       exists l', at_name (fold_left step h (step st o)) k = Some (mkTag k (dropTags n) p (mkScopeT l' s)) /\
             (l' = true <-> l = true /\ ~ next_document (o :: h))).
    { intros l1 Hs Hl1. destruct (IH (step st o) Hi' Hd' l1 Hs Hl) as [l' [R1 R2]].
      - intros h1 name' n' p' s' h2 E En. destruct (Hf (o :: h1) name' n' p' s' h2) as [F|[F|[d [F|F]]]]; auto.
        + now rewrite E.
        + right. left. destruct l1; auto. destruct Hl1 as [Hl1 _]. destruct (Hl1 eq_refl). congruence.
        + right. left. destruct l1; auto. destruct Hl1 as [Hl1 _]. destruct (Hl1 eq_refl) as [_ X].
          exfalso. apply X. exists d. subst. now left.
        + right. right. now exists d.
      - exists l'. split; [exact R1|]. rewrite R2, Hl1. split.
        + intros [[A B] C]. split; auto. intros [d [D|D]]; [apply B|apply C]; exists d; [left; exact D|exact D].
        + intros [A B]. split; [split; [exact A|]|]; intros [d D]; apply B; exists d.
          * destruct D as [D|[]]. now left.
          * now right. }
    destruct o as [name' n' p' s'|d| |]; cbn [step].
    + apply (Cont l).
      * cbn [step]. rewrite at_set. destruct (String.eqb k (normName name')) eqn:E; auto. apply String.eqb_eq in E.
        destruct (Hf [] name' n' p' s' h eq_refl (eq_sym E)) as [F|[F|[d []]]].
        -- unfold free_for. unfold at_name in Ha. rewrite Ha. cbn. destruct (path_eqb p' p) eqn:Ep; [apply path_eqb_spec in Ep; congruence|].
           now rewrite andb_false_r.
        -- subst l. unfold free_for. unfold at_name in Ha. rewrite Ha. exact Ha.
      * split; [intro; split; auto; intros [d0 [H0|[]]]; discriminate|tauto].
    + apply (Cont false).
      * cbn [step]. rewrite at_push by auto.
        assert (Hne : String.eqb k (docName (docno st)) = false).
        { apply eqb_false_neq. intros ->. rewrite docName_prefix in Hk. discriminate. }
        rewrite Hne. cbn. rewrite Ha. destruct d; reflexivity.
      * split; [discriminate|]. intros [_ H]. exfalso. apply H. exists d. now left.
    + apply (Cont l).
      * cbn [step]. rewrite at_resetStream by auto. rewrite Ha. unfold isStream. cbn.
        destruct s; auto. exfalso. apply (L2 eq_refl). now left.
      * split; [intro; split; auto; intros [d0 [H0|[]]]; discriminate|tauto].
    + exfalso. apply L1. now left.
Qed.

Lemma accepted_at st name n p s : accepts st name n p s = true ->
  at_name (step st (OpSet name n p s)) (normName name) = Some (mkTag (normName name) (dropTags n) p (mkScopeT true s)).
Proof.
  unfold accepts. rewrite set_eq. intro H. cbn [step]. rewrite at_set, String.eqb_refl.
  destruct (free_for st (normName name) p); [reflexivity|discriminate].
Qed.

(** A tag that was accepted is found under its name afterwards (with the value of
    the tagged node) until it is reset, whatever else happens: no later
    definition by another node or in another document replaces it ... *)
Theorem C29_kept h name n path stream rest :
  no_doc name ->
  accepts (run newTS h) name n path stream = true ->
  lives stream rest -> only_foreign name path rest ->
  exists t, getTag (run newTS (h ++ OpSet name n path stream :: rest)) name = Some t /\
            t_node t = dropTags n /\ t_path t = path.
Proof.
  intros Hk Ha Hl Hf. rewrite run_app. change (run ?s (?o :: ?r)) with (run (step s o) r).
  assert (Hi := tinv_run newTS h tinv_new). assert (Hd := docno_run newTS h (Z.le_refl 1)).
  destruct (stays (step (run newTS h) (OpSet name n path stream)) (normName name) n path stream rest
              (tinv_step _ _ Hi) (docno_step _ _ Hd) Hk true (accepted_at _ _ _ _ _ Ha) Hl) as [l' [R _]].
  - intros h1 name' n' p' s' h2 E En. destruct (Hf _ _ _ _ _ _ E En); auto.
  - eexists. rewrite no_doc_get by auto. split; [exact R|]. auto.
Qed.

(** ... because such a definition is answered with an error *)
Theorem C29_conflict_reported h name n path stream rest name' n' path' stream' :
  no_doc name ->
  accepts (run newTS h) name n path stream = true ->
  lives stream rest -> only_foreign name path rest ->
  same_name name' name -> path' <> path \/ next_document rest ->
  accepts (run newTS (h ++ OpSet name n path stream :: rest)) name' n' path' stream' = false.
Proof.
  intros Hk Ha Hl Hf Hn Hp. rewrite run_app. change (run ?s (?o :: ?r)) with (run (step s o) r).
  assert (Hi := tinv_run newTS h tinv_new). assert (Hd := docno_run newTS h (Z.le_refl 1)).
  destruct (stays (step (run newTS h) (OpSet name n path stream)) (normName name) n path stream rest
              (tinv_step _ _ Hi) (docno_step _ _ Hd) Hk true (accepted_at _ _ _ _ _ Ha) Hl) as [l' [R Rl]].
  - intros h1 m1 m2 m3 m4 h2 E En. destruct (Hf _ _ _ _ _ _ E En); auto.
  - unfold accepts. rewrite set_eq. unfold free_for. rewrite Hn. unfold at_name in R. rewrite R. unfold isLocal. cbn.
    destruct Hp as [Hp|Hp].
    + destruct (path_eqb path' path) eqn:E; [apply path_eqb_spec in E; congruence|]. now rewrite andb_false_r.
    + destruct l'; auto. destruct Rl as [Rl _]. destruct (Rl eq_refl). contradiction.
Qed.

(** A node may be evaluated repeatedly while its document is processed: the same
    node redefines its tag without conflict and the last value counts. *)
Theorem C29_reevaluated h name n path stream rest n' stream' :
  no_doc name ->
  accepts (run newTS h) name n path stream = true ->
  lives stream rest -> only_foreign name path rest -> ~ next_document rest ->
  let h' := h ++ OpSet name n path stream :: rest in
  accepts (run newTS h') name n' path stream' = true /\
  exists t, getTag (run newTS (h' ++ [OpSet name n' path stream'])) name = Some t /\
            t_node t = dropTags n' /\ t_path t = path.
Proof.
  intros Hk Ha Hl Hf Hp h'. 
  assert (Hi := tinv_run newTS h tinv_new). assert (Hd := docno_run newTS h (Z.le_refl 1)).
  destruct (stays (step (run newTS h) (OpSet name n path stream)) (normName name) n path stream rest
              (tinv_step _ _ Hi) (docno_step _ _ Hd) Hk true (accepted_at _ _ _ _ _ Ha) Hl) as [l' [R Rl]].
  { intros h1 m1 m2 m3 m4 h2 E En. destruct (Hf _ _ _ _ _ _ E En); auto. }
  assert (El : l' = true) by (apply Rl; auto). subst l'.
  assert (Hacc : accepts (run newTS h') name n' path stream' = true).
  { unfold h'. rewrite run_app. change (run ?s (?o :: ?r)) with (run (step s o) r).
    unfold accepts. rewrite set_eq. unfold free_for. unfold at_name in R. rewrite R. unfold isLocal. cbn.
    now rewrite (proj2 (path_eqb_spec path path) eq_refl). }
  split; auto. rewrite run_app. cbn [run fold_left]. eexists. rewrite no_doc_get by auto.
  split; [apply accepted_at; exact Hacc|]. auto.
Qed.

(** the end of the stream ends a stream tag *)
Theorem C29_stream_ends h name n path rest :
  no_doc name ->
  accepts (run newTS h) name n path true = true ->
  lives true rest -> only_foreign name path rest ->
  getTag (run newTS (h ++ OpSet name n path true :: rest ++ [OpResetStream])) name = None.
Proof.
  intros Hk Ha Hl Hf. rewrite run_app. change (run ?s (?o :: ?r)) with (run (step s o) r). rewrite run_app. cbn [run fold_left].
  assert (Hi := tinv_run newTS h tinv_new). assert (Hd := docno_run newTS h (Z.le_refl 1)).
  destruct (stays (step (run newTS h) (OpSet name n path true)) (normName name) n path true rest
              (tinv_step _ _ Hi) (docno_step _ _ Hd) Hk true (accepted_at _ _ _ _ _ Ha) Hl) as [l' [R _]].
  { intros h1 m1 m2 m3 m4 h2 E En. destruct (Hf _ _ _ _ _ _ E En); auto. }
  rewrite no_doc_get by auto. set (s1 := step (run newTS h) (OpSet name n path true)) in *.
  change (at_name (resetStream (run s1 rest)) (normName name) = None).
  rewrite at_resetStream by (apply tinv_run; unfold s1; now apply tinv_step). rewrite R. reflexivity.
Qed.

(** after the reset of all tags no tag is left *)
Theorem C29_all_end h name : getTag (run newTS (h ++ [OpResetAll])) name = None.
Proof. rewrite run_app. cbn. unfold getTag. destruct (tagRef _ _); reflexivity. Qed.

(** a name nobody has ever defined is not found *)
Theorem C29_nothing_invented h name : no_doc name ->
  (forall name' n' p' s', In (OpSet name' n' p' s') h -> ~ same_name name' name) ->
  getTag (run newTS h) name = None.
Proof.
  intros Hk Hf. rewrite no_doc_get by auto. fold (at_name (run newTS h) (normName name)).
  assert (G : forall st, tinv st -> 1 <= docno st -> at_name st (normName name) = None -> at_name (run st h) (normName name) = None).
  2:{ apply G; [exact tinv_new|cbn; lia|reflexivity]. }
  revert Hf. induction h as [|o h IH]; intros Hf st Hi Hd Ha; auto. cbn [run fold_left].
  apply IH; [intros m1 m2 m3 m4 M; apply (Hf m1 m2 m3 m4); now right|now apply tinv_step|now apply docno_step|].
  destruct o as [name' n' p' s'|d| |]; cbn [step].
  - rewrite at_set. destruct (String.eqb (normName name) (normName name')) eqn:E; auto.
    exfalso. apply String.eqb_eq in E. exact (Hf name' n' p' s' (or_introl eq_refl) (eq_sym E)).
  - rewrite at_push by auto.
    assert (Hne : String.eqb (normName name) (docName (docno st)) = false).
    { apply eqb_false_neq. intro E. unfold no_doc in Hk. rewrite E, docName_prefix in Hk. discriminate. }
    rewrite Hne, Ha. destruct d; reflexivity.
  - rewrite at_resetStream by auto. now rewrite Ha.
  - reflexivity.
Qed.

(** The stored node is the tagged one, except that the tags inside it are dropped:
    forgetting the tags of all nodes, both are equal. *)
Fixpoint forget_tags (n : node) : node :=
  match n with
  | mkNode v a s t r =>
      mkNode (match v with
              | VList l => VList (map forget_tags l)
              | VMap m => VMap (map (fun p => match p with (k, e) => (k, forget_tags e) end) m)
              | _ => v
              end) (aSetTag "" a) s t r
  end.

Lemma forget_dropTags1 : forall n, forget_tags (dropTags1 n) = forget_tags n.
Proof.
  fix IH 1. intros [v a s t r].
  assert (E : aSetTag "" (if String.eqb (a_tag a) "" then a else aSetTag "" a) = aSetTag "" a).
  { destruct (String.eqb (a_tag a) ""); reflexivity. }
  destruct v; cbn; rewrite E; try reflexivity; f_equal; f_equal; rewrite map_map; clear - IH.
  - induction l as [|x l IHl]; cbn; [|f_equal]; auto.
  - induction m as [|[k x] l IHl]; cbn; [|f_equal]; auto. f_equal. apply IH.
Qed.

Theorem C29_stored_node n : forget_tags (dropTags n) = forget_tags n /\
  (match val n with VList _ | VMap _ => True | _ => dropTags n = n end).
Proof.
  destruct n as [v a s t r]; destruct v; cbn; split; auto; f_equal; f_equal; rewrite map_map; apply map_ext.
  - apply forget_dropTags1.
  - intros [k x]. cbn. f_equal. apply forget_dropTags1.
Qed.

(** *** Tag lists *)

(** number of separators in a (normalized) name *)
Definition depth (name : string) : nat := count_occ ascii_dec (chars name) "."%char.
(** by depth first, then by name *)
Definition listed_before (a b : tag) : Prop :=
  (depth (t_name a) < depth (t_name b))%nat \/
  (depth (t_name a) = depth (t_name b) /\ String.compare (t_name a) (t_name b) = Lt).

Lemma level_depth s : normName s = s -> tagLevel s = depth s.
Proof.
  intro H. assert (Hn : ~ In ":"%char (chars s)).
  { intro Hi. rewrite <- H in Hi. unfold normName in Hi. rewrite chars_ofchars in Hi. apply in_map_iff in Hi.
    destruct Hi as [c [E _]]. destruct (Ascii.eqb_spec c ":"); congruence. }
  unfold tagLevel, depth. induction (chars s) as [|c l IH]; auto. cbn.
  destruct (ascii_dec c ".") as [->|N].
  - cbn. f_equal. apply IH. intro. apply Hn. now right.
  - destruct (Ascii.eqb_spec c ":"); [subst; exfalso; apply Hn; now left|].
    destruct (Ascii.eqb_spec c "."); [congruence|]. cbn. apply IH. intro. apply Hn. now right.
Qed.

Lemma tagLess_spec a b : normName (t_name a) = t_name a -> normName (t_name b) = t_name b ->
  (tagLess a b = true <-> listed_before a b).
Proof.
  intros Ha Hb. unfold tagLess, listed_before. rewrite !level_depth by auto.
  destruct (Nat.eqb_spec (depth (t_name a)) (depth (t_name b))) as [E|E].
  - destruct (String.compare (t_name a) (t_name b)); split; intro H; auto; try discriminate; destruct H; try lia; destruct H; discriminate.
  - rewrite Nat.ltb_lt. split; [auto|]. intros [H|[H _]]; auto. contradiction.
Qed.

Lemma listed_trans a b c : listed_before a b -> listed_before b c -> listed_before a c.
Proof.
  unfold listed_before. intros [H|[H H']] [G|[G G']]; try (left; lia).
  right. split; [congruence|]. eapply scmp_trans; eauto.
Qed.
Lemma listed_total a b : t_name a <> t_name b -> listed_before a b \/ listed_before b a.
Proof.
  intro H. unfold listed_before. destruct (Nat.lt_trichotomy (depth (t_name a)) (depth (t_name b))) as [L|[L|L]]; auto.
  destruct (String.compare (t_name a) (t_name b)) eqn:E.
  - apply scmp_eq in E. contradiction.
  - auto.
  - apply scmp_gt in E. auto.
Qed.

Lemma insertTag_perm t l : Permutation (insertTag t l) (t :: l).
Proof.
  induction l as [|x l IH]; cbn; auto. destruct (tagLess t x); auto.
  rewrite perm_swap. now constructor.
Qed.
Lemma sortTags_perm l : Permutation (sortTags l) l.
Proof. induction l as [|t l IH]; cbn; auto. rewrite insertTag_perm. now constructor. Qed.

Definition goodtags (l : list tag) : Prop := NoDup (map t_name l) /\ Forall (fun t => normName (t_name t) = t_name t) l.

Lemma insertTag_sorted t l : Forall (fun t => normName (t_name t) = t_name t) (t :: l) ->
  ~ In (t_name t) (map t_name l) -> StronglySorted listed_before l -> StronglySorted listed_before (insertTag t l).
Proof.
  intros Hf Hn Hs. inversion Hf as [|? ? Ht Hl]; subst. induction Hs as [|x l Hs IH Hx]; cbn.
  - repeat constructor.
  - inversion Hl as [|? ? Hx0 Hl0]; subst. destruct (tagLess t x) eqn:E.
    + apply (tagLess_spec t x Ht Hx0) in E. constructor; [now constructor|]. constructor; auto.
      revert Hx. apply Forall_impl. intros y. now apply listed_trans.
    + constructor.
      * apply IH; auto. intro. apply Hn. now right.
      * assert (Hb : listed_before x t).
        { destruct (listed_total t x) as [H|H]; auto.
          - intro E2. apply Hn. left. auto.
          - apply (tagLess_spec t x Ht Hx0) in H. congruence. }
        assert (P := insertTag_perm t l). apply Permutation_sym in P. eapply Permutation_Forall; [exact P|].
        now constructor.
Qed.
Lemma sortTags_sorted l : goodtags l -> StronglySorted listed_before (sortTags l).
Proof.
  intros [Hn Hf]. induction l as [|t l IH]; cbn; [constructor|]. inversion Hn; inversion Hf; subst.
  apply insertTag_sorted; auto.
  - constructor; auto. eapply Permutation_Forall; [apply Permutation_sym, sortTags_perm|]; auto.
  - intro Hi. apply H1. eapply Permutation_in; [|exact Hi]. apply Permutation_map, sortTags_perm.
Qed.

Lemma state_goodtags st f : tinv st -> goodtags (filter f (map snd (tags st))).
Proof.
  intros [Hs Hn]. assert (G : goodtags (map snd (tags st))).
  { split.
    - apply msorted_NoDup in Hs. unfold mkeys in Hs. replace (map t_name (map snd (tags st))) with (map fst (tags st)); auto.
      rewrite map_map. apply map_ext_in. intros [k t] Hi. cbn. symmetry. now apply (Hn k t).
    - apply Forall_forall. intros t Ht. apply in_map_iff in Ht. destruct Ht as [[k t0] [E Hi]]. cbn in E. subst t0.
      destruct (Hn _ _ Hi) as [-> H]. auto. }
  destruct G as [G1 G2]. split.
  - revert G1. generalize (map snd (tags st)) as l. clear. induction l as [|t l IH]; cbn; auto. intro H. inversion H; subst.
    destruct (f t); cbn; auto. constructor; auto. intro Hi. apply H2. apply in_map_iff in Hi. destruct Hi as [t0 [E Hi]].
    apply filter_In in Hi. apply in_map_iff. exists t0. tauto.
  - apply Forall_forall. intros t Ht. apply filter_In in Ht. rewrite Forall_forall in G2. now apply G2.
Qed.

(** The list of tags for a name consists of exactly the tags with this name or
    with the name as leading components, ordered by depth and name. *)
Theorem C29_tag_list h name : no_doc name ->
  let st := run newTS h in
  let L := getTags st name in
  (forall t, In t L <-> mget (t_name t) (tags st) = Some t /\
                        (t_name t = normName name \/ exists r, t_name t = (normName name +++ "." +++ r)%string)) /\
  NoDup (map t_name L) /\
  StronglySorted listed_before L.
Proof.
  intros Hk st L. assert (Hi : tinv st) by exact (tinv_run newTS h tinv_new).
  unfold L, getTags. unfold no_doc in Hk. rewrite Hk.
  set (f := fun t : tag => _). assert (G := state_goodtags st f Hi). split; [|split].
  - intro t. split.
    + intro Ht. apply (Permutation_in _ (sortTags_perm _)) in Ht. apply filter_In in Ht. destruct Ht as [Ht Hf].
      apply in_map_iff in Ht. destruct Ht as [[k t0] [E Ht]]. cbn in E. subst t0. split.
      * destruct Hi as [Hs Hn]. destruct (Hn _ _ Ht) as [-> _]. apply In_mget; auto. now apply msorted_NoDup.
      * unfold f in Hf. apply orb_prop in Hf. destruct Hf as [Hf|Hf].
        -- left. now apply String.eqb_eq.
        -- right. apply hasPrefix_spec in Hf. destruct Hf as [r ->]. exists r. apply sapp_assoc.
    + intros [Ht Hf]. apply (Permutation_in _ (Permutation_sym (sortTags_perm _))). apply filter_In. split.
      * apply mget_In in Ht. apply in_map_iff. now exists (t_name t, t).
      * unfold f. apply orb_true_intro. destruct Hf as [Hf|[r Hf]].
        -- left. now apply String.eqb_eq.
        -- right. apply hasPrefix_spec. exists r. rewrite Hf. symmetry. apply sapp_assoc.
  - destruct G as [G _]. eapply Permutation_NoDup; [|exact G]. apply Permutation_map, Permutation_sym, sortTags_perm.
  - now apply sortTags_sorted.
Qed.

(** These conditions leave no choice: any sorting method yields this list. *)
Theorem C29_tag_list_unique L1 L2 :
  (forall t, In t L1 <-> In t L2) -> StronglySorted listed_before L1 -> StronglySorted listed_before L2 -> L1 = L2.
Proof.
  assert (Irr : forall a, ~ listed_before a a).
  { intros a [H|[_ H]]; [lia|]. rewrite scmp_refl in H. discriminate. }
  intros Hin H1. revert L2 Hin. induction H1 as [|a L1 H1 IH Ha]; intros L2 Hin H2.
  - destruct L2 as [|b L2]; auto. exfalso. apply (Hin b). now left.
  - destruct H2 as [|b L2 H2 Hb]; [exfalso; apply (Hin a); now left|].
    rewrite Forall_forall in Ha, Hb.
    assert (E : a = b).
    { assert (Hab : In a (b :: L2)) by (apply Hin; now left). assert (Hba : In b (a :: L1)) by (apply Hin; now left).
      destruct Hab as [<-|Hab]; auto. destruct Hba as [<-|Hba]; auto. exfalso. apply (Irr a). eapply listed_trans; eauto. }
    subst b. f_equal. apply IH; auto. intro t. split; intro Ht.
    + assert (X : In t (a :: L2)) by (apply Hin; now right). destruct X as [<-|X]; auto. exfalso. apply (Irr a). auto.
    + assert (X : In t (a :: L1)) by (apply Hin; now right). destruct X as [<-|X]; auto. exfalso. apply (Irr a). auto.
Qed.

(** A tag "doc.x" is accepted but can never be referenced: the full claim "every
    accepted tag is found" fails for names starting with the component doc. *)
Theorem C29_doc_component_refuted : exists name n,
  checkTagName name = true /\ accepts newTS name n [] true = true /\
  getTag (run newTS [OpSet name n [] true]) name = None.
Proof. exists "doc.x", (newNode (VInt 1) ""). repeat split. Qed.

(** concrete history meeting the hypotheses *)
Definition demo (i : Z) : node := newNode (VList [setTag (newNode (VInt i) "") "inner"]) "".
Example C29_nonvacuous :
  let h := [OpSet "a:b" (demo 1) ["x"] false; OpPush (Some (demo 2))] in
  let rest := [OpPush None; OpResetStream; OpSet "a.b" (demo 4) ["x"] true; OpSet "a.c" (demo 5) ["y"] false] in
  accepts (run newTS h) "t" (demo 3) ["p"; "q"] false = true /\
  lives false rest /\ no_doc "t" /\
  match getTag (run newTS (h ++ rest)) "a.b" with Some t => val (t_node t) | None => VNil end = VList [newNode (VInt 1) ""] /\
  map t_name (getTags (run newTS (h ++ rest)) "a") = ["a.b"; "a.c"] /\
  accepts (run newTS h) "a.b" (demo 3) ["x"] true = false.
Proof.
  repeat split; try discriminate. cbn. intros [H|[H|[H|[H|[]]]]]; discriminate.
Qed.

(** ** C30 *)

Definition pushed (h : list op) : list (option node) :=
  flat_map (fun o => match o with OpPush d => [d] | _ => [] end) h.
(** document tags are not defined by users *)
Definition user_tags (h : list op) : Prop :=
  forall name n p s i, In (OpSet name n p s) h -> 1 <= i -> normName name <> docName i.

(** neither the syntax of tag markers (dynaml.peg:128-129: components start with a
    letter or "_") nor tagdef (CheckTagName) accepts a document number *)
Definition tag_syntax (name : string) : Prop :=
  forall c r pre, normName name = (pre +++ "." +++ String c r)%string -> isDigit c = false.
Theorem C30_user_tags name i : 1 <= i -> checkTagName name = true \/ tag_syntax name -> normName name <> docName i.
Proof.
  intros Hi H E.
  destruct (itoa_nonneg i) as [u [Hu [Eu _]]]; [lia|].
  assert (exists c r, itoa i = String c r /\ isDigit c = true) as [c [r [Ec Hc]]].
  { rewrite Eu. destruct (NilEmpty.string_of_uint u) as [|c r] eqn:Es.
    - exfalso. revert Es. now apply uint_nonempty.
    - exists c, r. split; auto. apply (uint_digits u). rewrite Es. now left. }
  destruct H as [H|H].
  - unfold checkTagName in H.
    assert (exists l, chars name = ["d"; "o"; "c"]%char ++ l /\ exists x l', l = x :: c :: l' /\ (x = ":" \/ x = ".")%char) as [l [E1 [x [l' [E2 Hx]]]]].
    { unfold docName in E. rewrite Ec in E. apply (f_equal chars) in E. unfold normName in E. rewrite chars_ofchars in E.
      unfold chars at 2 in E. cbn in E.
      assert (P : forall c0 c1, (if Ascii.eqb c0 ":" then "."%char else c0) = c1 -> c1 <> "."%char -> c0 = c1).
      { intros c0 c1 E0 N. destruct (Ascii.eqb c0 ":"); congruence. }
      destruct (chars name) as [|c0 [|c1 [|c2 [|c3 [|c4 l]]]]]; try discriminate E. injection E as X0 X1 X2 X3 X4 X5.
      apply P in X0; [|discriminate]. apply P in X1; [|discriminate]. apply P in X2; [|discriminate].
      assert (c4 = c). { apply P in X4; auto. intros ->. discriminate. }
      assert (X : c3 = ":"%char \/ c3 = "."%char) by (revert X3; clear; destruct (Ascii.eqb_spec c3 ":"); auto).
      subst c0 c1 c2 c4. exists (c3 :: c :: l). split; [reflexivity|]. exists c3, l. split; auto. }
    rewrite E1, E2 in H. destruct Hx as [-> | ->]; cbn in H.
    + destruct (Ascii.eqb c ":" || Ascii.eqb c "."); [discriminate|]. rewrite Hc in H. discriminate.
    + destruct (Ascii.eqb c ":" || Ascii.eqb c "."); [discriminate|]. rewrite Hc in H. discriminate.
  - specialize (H c r "doc"). rewrite E in H. unfold docName in H. rewrite Ec in H. rewrite H in Hc by reflexivity. discriminate.
Qed.

(** the document tags of a state *)
Definition doc_state (st : tstate) (docs : list (option node)) : Prop :=
  docno st = 1 + Z.of_nat (length docs) /\
  forall i, 1 <= i -> in64 i ->
    at_name st (docName i) = match nth_error docs (Z.to_nat (i - 1)) with
                             | Some (Some d) => Some (mkTag (docName i) (dropTags d) [] (mkScopeT false false))
                             | _ => None
                             end.

Lemma docName_inj i j : in64 i -> in64 j -> docName i = docName j -> i = j.
Proof. intros Hi Hj E. unfold docName in E. apply sapp_inj_l in E. now apply itoa_inj. Qed.

Lemma doc_state_run h : forall st docs, doc_state st docs -> user_tags h ->
  ~ In OpResetStream h -> ~ In OpResetAll h -> Z.of_nat (length docs + length (pushed h)) < max64 ->
  tinv st ->
  doc_state (run st h) (docs ++ pushed h).
Proof.
  induction h as [|o h IH]; intros st docs [Hd Ha] Hu H1 H2 Hm Hi; cbn [run fold_left].
  - cbn. rewrite app_nil_r. split; auto.
  - assert (Hu' : user_tags h) by (intros a b c d e F; apply (Hu a b c d e); now right).
    assert (K1 : ~ In OpResetStream h) by (intro; apply H1; now right).
    assert (K2 : ~ In OpResetAll h) by (intro; apply H2; now right).
    assert (Hi' := tinv_step st o Hi).
    destruct o as [name n p s|d| |]; [| |exfalso; apply H1; now left|exfalso; apply H2; now left].
    + apply IH; auto. cbn [step]. split.
      * rewrite set_eq. destruct (free_for _ _ _); auto.
      * intros i Hi1 Hi2. rewrite at_set. destruct (String.eqb (docName i) (normName name)) eqn:E; cbn [andb]; [|now apply Ha].
        exfalso. apply String.eqb_eq in E. apply (Hu name n p s i (or_introl eq_refl) Hi1). auto.
    + cbn [pushed flat_map app]. replace (docs ++ d :: flat_map _ h) with ((docs ++ [d]) ++ pushed h) by (rewrite <- app_assoc; reflexivity).
      cbn [pushed flat_map app length] in Hm. fold (pushed h) in Hm.
      assert (Hb : in64 (docno st)) by (rewrite Hd; unfold in64, min64, max64 in *; lia).
      apply IH; auto.
      2:{ rewrite app_length. cbn. lia. }
      cbn [step]. split.
      * rewrite app_length. cbn [length].
        assert (Edn : docno (pushDocument st d) = docno st + 1).
        { unfold pushDocument. destruct d; cbn [docno]; auto. rewrite set_eq. destruct (free_for _ _ _); reflexivity. }
        rewrite Edn, Hd. lia.
      * intros i Hi1 Hi2. rewrite at_push by lia.
        assert (Hlen : Z.to_nat (docno st - 1) = length docs) by (rewrite Hd; lia).
        assert (Hfree : free_for st (docName (docno st)) [] = true).
        { unfold free_for. specialize (Ha (docno st)). unfold at_name in Ha. rewrite Ha by (auto; lia).
          rewrite Hlen. now rewrite (proj2 (nth_error_None docs (length docs)) (Nat.le_refl _)). }
        assert (Hnth : nth_error (docs ++ [d]) (Z.to_nat (i - 1)) =
                       if Z.eqb i (docno st) then Some d else nth_error docs (Z.to_nat (i - 1))).
        { destruct (Z.eqb_spec i (docno st)) as [->|N].
          - rewrite Hlen, nth_error_app2, Nat.sub_diag by lia. reflexivity.
          - destruct (Nat.lt_ge_cases (Z.to_nat (i - 1)) (length docs)).
            + now rewrite nth_error_app1.
            + rewrite (proj2 (nth_error_None docs _)) by lia. apply nth_error_None. rewrite app_length. cbn. lia. }
        rewrite Hnth. destruct (Z.eqb_spec i (docno st)) as [->|N].
        -- rewrite String.eqb_refl, Hfree. cbn [andb]. destruct d as [dn|]; [reflexivity|].
           rewrite Ha by (auto; lia). rewrite Hlen. now rewrite (proj2 (nth_error_None docs (length docs)) (Nat.le_refl _)).
        -- assert (E : String.eqb (docName i) (docName (docno st)) = false).
           { apply eqb_false_neq. intro E. apply N. now apply docName_inj. }
           rewrite E. cbn [andb]. rewrite Ha by auto.
           destruct d; destruct (nth_error docs (Z.to_nat (i - 1))) as [[x|]|]; reflexivity.
Qed.

Lemma doc_ref st i : in64 i -> 1 <= i -> tagRef st (docName i) = Some (docName i).
Proof.
  intros H1 H2. unfold tagRef. rewrite docName_norm by auto. rewrite docName_prefix.
  replace (sdrop 4 (docName i)) with (itoa i).
  - rewrite parseInt_itoa by auto. destruct (Z.leb_spec i 0); [lia|reflexivity].
  - unfold docName, sdrop. rewrite slength_app. cbn [String.length]. change (String.length "doc.") with 4%nat.
    replace (4 + String.length (itoa i) - 4)%nat with (String.length (itoa i)) by lia.
    change 4%nat with (String.length "doc."). rewrite substring_app_r. now rewrite substring_full.
Qed.
Lemma itoa_nocolon i : normName (itoa i) = itoa i.
Proof.
  apply normName_nocolon. intro H. destruct i as [|p|p].
  - cbn in H. destruct H as [H|[]]. discriminate.
  - destruct (itoa_nonneg (Z.pos p)) as [u [_ [E _]]]; [lia|]. rewrite E in H. apply uint_digits in H. discriminate.
  - rewrite itoa_neg in H. destruct (itoa_nonneg (Z.pos p)) as [u [_ [E _]]]; [lia|]. rewrite E in H.
    destruct H as [H|H]; [discriminate|]. apply uint_digits in H. discriminate.
Qed.
Lemma doc_ref_neg st k : in64 (docno st) -> 0 <= k < docno st -> tagRef st (docName (- k)) = Some (docName (docno st - k)).
Proof.
  intros H1 H2. unfold tagRef. assert (En : normName (docName (- k)) = docName (- k)).
  { unfold docName. rewrite normName_app, itoa_nocolon. reflexivity. }
  rewrite En, docName_prefix.
  replace (sdrop 4 (docName (- k))) with (itoa (- k)).
  - rewrite parseInt_itoa by (unfold in64, min64, max64 in *; lia). destruct (Z.leb_spec (- k) 0); [|lia].
    replace (- k + docno st) with (docno st - k) by lia. rewrite wrap64_id by (unfold in64, min64, max64 in *; lia).
    destruct (Z.leb_spec (docno st - k) 0); [lia|reflexivity].
  - unfold docName, sdrop. rewrite slength_app. cbn [String.length]. change (String.length "doc.") with 4%nat.
    replace (4 + String.length (itoa (- k)) - 4)%nat with (String.length (itoa (- k))) by lia.
    change 4%nat with (String.length "doc."). rewrite substring_app_r. now rewrite substring_full.
Qed.

(** the node found under a document name *)
Definition found_doc (st : tstate) (name : string) : option node := option_map t_node (getTag st name).

(** In the first stream after a start (or a reset of all tags) doc.N denotes the
    N-th document and doc.-K the K-th previous one, whatever other tags are set. *)
Theorem C30_numbering_partial h0 h : user_tags h ->
  ~ In OpResetStream h -> ~ In OpResetAll h -> Z.of_nat (length (pushed h)) < max64 - 1 ->
  (h0 = [] \/ exists h1, h0 = h1 ++ [OpResetAll]) ->
  let st := run newTS (h0 ++ h) in
  let docs := pushed h in
  (forall i, 1 <= i <= Z.of_nat (length docs) ->
     found_doc st (docName i) = option_map dropTags (nth (Z.to_nat (i - 1)) docs None)) /\
  (forall k, 1 <= k <= Z.of_nat (length docs) ->
     found_doc st (docName (- k)) = option_map dropTags (nth (length docs - Z.to_nat k) docs None)) /\
  (forall i, in64 i -> Z.of_nat (length docs) < i -> found_doc st (docName i) = None) /\
  found_doc st (docName 0) = None.
Proof.
  intros Hu H1 H2 Hm H0 st docs.
  assert (E : doc_state st docs /\ tinv st) .
  { assert (Hs : run newTS h0 = newTS) by (destruct H0 as [->|[h1 ->]]; [|rewrite run_app]; reflexivity).
    unfold st. rewrite run_app, Hs. split; [|apply tinv_run, tinv_new].
    apply (doc_state_run h newTS []); [|exact Hu|exact H1|exact H2|change (length (@nil (option node))) with 0%nat; lia|exact tinv_new].
    split; [reflexivity|]. intros i _ _. cbn. destruct (Z.to_nat (i - 1)); reflexivity. }
  destruct E as [[Hd Ha] Hi].
  assert (Hget : forall i, 1 <= i -> in64 i -> option_map t_node (mget (docName i) (tags st)) =
                  option_map dropTags (nth (Z.to_nat (i - 1)) docs None)).
  { intros i Hi1 Hi2. specialize (Ha i Hi1 Hi2). unfold at_name in Ha. rewrite Ha.
    destruct (nth_error docs (Z.to_nat (i - 1))) as [d|] eqn:En.
    - rewrite (nth_error_nth _ _ _ En). destruct d; reflexivity.
    - rewrite nth_overflow; [reflexivity|]. now apply nth_error_None. }
  assert (B : Z.of_nat (length docs) < max64 - 1) by exact Hm.
  repeat split.
  - intros i Hr. assert (in64 i) by (unfold in64, min64, max64 in *; lia).
    unfold found_doc, getTag. rewrite doc_ref by (auto; lia). apply Hget; auto; lia.
  - intros k Hr. unfold found_doc, getTag. rewrite doc_ref_neg by (unfold in64, min64, max64 in *; lia).
    rewrite Hget by (unfold in64, min64, max64 in *; lia).
    f_equal. f_equal. lia.
  - intros i H64 Hr. unfold found_doc, getTag. rewrite doc_ref by (auto; lia). rewrite Hget by (auto; lia).
    rewrite nth_overflow by lia. reflexivity.
  - unfold found_doc, getTag. change (docName 0) with (docName (- 0)). rewrite doc_ref_neg by (unfold in64, min64, max64 in *; lia).
    rewrite Hget by (unfold in64, min64, max64 in *; lia). rewrite nth_overflow by lia. reflexivity.
Qed.

(** After a stream reset the old documents stay visible and the new ones are not
    recorded: the full claim fails for the second stream. *)
Theorem C30_second_stream_refuted : exists d1 d2,
  val d1 <> val d2 /\
  found_doc (run newTS [OpPush (Some d1); OpResetStream; OpPush (Some d2)]) "doc.1" = Some d1.
Proof. exists (newNode (VInt 1) ""), (newNode (VInt 2) ""). split; [discriminate|reflexivity]. Qed.

Example C30_nonvacuous :
  let h := [OpSet "a" (demo 0) ["x"] true; OpPush (Some (demo 1)); OpPush None; OpPush (Some (demo 3))] in
  let st := run newTS h in
  (match found_doc st "doc.1" with Some n => val n | None => VNil end) = VList [newNode (VInt 1) ""] /\
  found_doc st "doc.2" = None /\
  (match found_doc st "doc:-1" with Some n => val n | None => VNil end) = VList [newNode (VInt 3) ""] /\
  (match found_doc st "doc.-3" with Some n => val n | None => VNil end) = VList [newNode (VInt 1) ""] /\
  found_doc st "doc.-4" = None.
Proof. repeat split. Qed.

Print Assumptions C29_kept.
Print Assumptions C29_conflict_reported.
Print Assumptions C29_reevaluated.
Print Assumptions C29_stream_ends.
Print Assumptions C29_all_end.
Print Assumptions C29_nothing_invented.
Print Assumptions C29_stored_node.
Print Assumptions C29_tag_list.
Print Assumptions C29_tag_list_unique.
Print Assumptions C29_doc_component_refuted.
Print Assumptions C30_user_tags.
Print Assumptions C30_numbering_partial.
Print Assumptions C30_second_stream_refuted.
