(** C39 values given by -D land at the addressed path. *)
From Verif Require Import Core CoreFacts Str StrFacts Find FindFacts EquivFacts PropMap PropList PropText Values.
From Coq Require Import Lia Permutation.
Import ListNotations.

(** * Specification *)

(** ** The spelling of a path

    A dot separates components.  A run of backslashes before a dot stands for half
    as many backslashes; if their number is odd, the dot belongs to the
    component.  Other backslashes stand for themselves. *)
Definition bs (k : nat) : list ascii := repeat BS k.
(** a piece of text without dots and not ending with a backslash *)
Definition piece (w : list ascii) : Prop := ~ In DOT w /\ forall v, w <> v ++ [BS].
Inductive spells : list ascii -> list (list ascii) -> Prop :=
| spell_last : forall c, ~ In DOT c -> spells c [c]
| spell_sep : forall w k t c, piece w -> spells t c -> spells (w ++ bs (2 * k) ++ DOT :: t) ((w ++ bs k) :: c)
| spell_dot : forall w k t c0 c, piece w -> spells t (c0 :: c) ->
    spells (w ++ bs (2 * k + 1) ++ DOT :: t) ((w ++ bs k ++ DOT :: c0) :: c).
(** no component but the last one is empty *)
Definition noEmpty {A} (c : list (list A)) : Prop := Forall (fun x => x <> []) (removelast c).

(** ** Paths and the values they lead to *)
Definition doc (m : smap node) : node := newNode (VMap m) "".
(** what a reference with these steps finds from the map [m] on *)
Definition at_ (m : smap node) (p : list string) : fres := find true true p (doc m).
Definition below (p q : list string) : Prop := exists r, q = p ++ r.
Definition apart (p q : list string) : Prop := ~ below p q /\ ~ below q p.

(** * Spelling *)

Lemma strip_bs : forall w k, (forall v, w <> v ++ [BS]) -> stripBS (w ++ bs k) = (w, k).
Proof.
  assert (B : forall k, stripBS (bs k) = ([], k)).
  { induction k; [reflexivity|]. change (bs (S k)) with (BS :: bs k). cbn [stripBS]. now rewrite IHk. }
  induction w as [|c w IH]; intros k H; [apply B|].
  cbn [app stripBS]. destruct w as [|d w].
  - cbn [app]. rewrite B. destruct (Ascii.eqb_spec c BS) as [->|]; [elim (H []); reflexivity|reflexivity].
  - rewrite IH; [reflexivity|]. intros v E. apply (H (c :: v)). cbn. now rewrite <- E.
Qed.
Lemma strip_spec : forall l w k, stripBS l = (w, k) -> l = w ++ bs k /\ forall v, w <> v ++ [BS].
Proof.
  induction l as [|c l IH]; intros w k; cbn [stripBS].
  - intro E; inversion E. split; [reflexivity|]. now destruct v.
  - destruct (stripBS l) as [w' k'] eqn:S. destruct (IH _ _ eq_refl) as [E N]. destruct w' as [|d w'].
    + destruct (Ascii.eqb_spec c BS) as [->|C]; intro X; inversion X; subst; cbn.
      * split; [reflexivity|]. now destruct v.
      * split; [reflexivity|]. destruct v as [|? [|]]; cbn; congruence.
    + intro X; inversion X; subst; cbn. split; [reflexivity|]. destruct v as [|? v]; cbn; [congruence|].
      intro Y. inversion Y. now apply (N v).
Qed.
Lemma strip_pre : forall pre l, stripBS (pre ++ DOT :: l) = (pre ++ DOT :: fst (stripBS l), snd (stripBS l)).
Proof.
  intros pre l. destruct (stripBS l) as [w k] eqn:S. destruct (strip_spec _ _ _ S) as [-> N]. cbn [fst snd].
  replace (pre ++ DOT :: w ++ bs k) with ((pre ++ DOT :: w) ++ bs k) by now rewrite <- app_assoc.
  apply strip_bs. intros v E. destruct w as [|c w] using rev_ind.
  - apply app_inj_tail in E. destruct E as [_ E]. discriminate.
  - clear IHw. replace (pre ++ DOT :: w ++ [c]) with ((pre ++ DOT :: w) ++ [c]) in E by now rewrite <- app_assoc.
    apply app_inj_tail in E. destruct E as [_ ->]. now apply (N w).
Qed.
Lemma half2 : forall k, Nat.div2 (2 * k) = k.
Proof. intro. now rewrite Nat.div2_double. Qed.
Lemma half21 : forall k, Nat.div2 (2 * k + 1) = k.
Proof. intro k. rewrite Nat.add_1_r. apply Nat.div2_succ_double. Qed.
Lemma odd2 : forall k, Nat.odd (2 * k) = false.
Proof. intro k. rewrite <- Nat.negb_even. now rewrite Nat.even_mul. Qed.
Lemma odd21 : forall k, Nat.odd (2 * k + 1) = true.
Proof. intro k. rewrite Nat.odd_add, odd2. reflexivity. Qed.

(** the components without the check for empty ones *)
Fixpoint unmask0 (cur : list ascii) (rest : list (list ascii)) : list (list ascii) :=
  match rest with
  | [] => [cur]
  | d :: r =>
      let base := fst (stripBS cur) ++ bs (Nat.div2 (snd (stripBS cur))) in
      if Nat.odd (snd (stripBS cur)) then unmask0 (base ++ DOT :: d) r else base :: unmask0 d r
  end.
Lemma unmask0_ne : forall rest cur, unmask0 cur rest <> [].
Proof. induction rest; intros; cbn [unmask0]; [discriminate|]. destruct (Nat.odd _); [auto|discriminate]. Qed.
Lemma base_nil : forall cur, fst (stripBS cur) ++ bs (Nat.div2 (snd (stripBS cur))) = [] ->
  Nat.odd (snd (stripBS cur)) = false -> cur = [].
Proof.
  intros cur. destruct (stripBS cur) as [w k] eqn:S. destruct (strip_spec _ _ _ S) as [-> N]. cbn [fst snd].
  intros E O. apply app_eq_nil in E. destruct E as [-> E]. destruct k as [|[|k]]; [reflexivity|discriminate|discriminate].
Qed.
Lemma unmask0_head : forall rest cur x l, cur <> [] -> unmask0 cur rest = x :: l -> rest <> [] -> x <> [].
Proof.
  induction rest as [|d r IH]; intros cur x l C E R; [congruence|]. cbn [unmask0] in E.
  destruct (Nat.odd (snd (stripBS cur))) eqn:O.
  - destruct r as [|e r].
    + inversion E. now destruct (fst (stripBS cur) ++ bs _).
    + eapply IH; [|exact E|discriminate]. now destruct (fst (stripBS cur) ++ bs _).
  - inversion E. intro B. apply C. now apply base_nil.
Qed.
Lemma unmask_spec : forall rest cur c, unmask cur rest = Some c <-> unmask0 cur rest = c /\ noEmpty c.
Proof.
  induction rest as [|d r IH]; intros cur c; cbn [unmask unmask0].
  - split; [intro E; inversion E; subst; split; [reflexivity|constructor]|intros [-> _]; reflexivity].
  - destruct cur as [|a cur].
    + cbn. split; [discriminate|]. intros [<- N]. exfalso. unfold noEmpty in N.
      pose proof (unmask0_ne r d). destruct (unmask0 d r); [congruence|]. inversion N. congruence.
    + destruct (stripBS (a :: cur)) as [w k] eqn:S. cbn [fst snd]. change (repeat BS) with bs.
      destruct (Nat.odd k) eqn:O; [apply IH|].
      assert (B : w ++ bs (Nat.div2 k) <> []).
      { intro B. pose proof (base_nil (a :: cur)) as X. rewrite S in X. cbn [fst snd] in X. specialize (X B O). discriminate. }
      split.
      * destruct (unmask d r) as [l|] eqn:U; [|discriminate]. intro E. inversion E. subst.
        apply IH in U. destruct U as [<- N]. split; [reflexivity|].
        unfold noEmpty in *. pose proof (unmask0_ne r d). destruct (unmask0 d r); [congruence|].
        cbn [removelast] in *. constructor; auto.
      * intros [<- N]. assert (U : unmask d r = Some (unmask0 d r)).
        { apply IH. split; [reflexivity|]. unfold noEmpty in *. pose proof (unmask0_ne r d).
          destruct (unmask0 d r); [congruence|]. inversion N. subst. exact H3. }
        rewrite U. reflexivity.
Qed.
Definition prep (pre : list ascii) (c : list (list ascii)) : list (list ascii) :=
  match c with [] => [] | x :: r => (pre ++ x) :: r end.
Lemma unmask0_pre : forall rest pre cur, unmask0 (pre ++ DOT :: cur) rest = prep (pre ++ [DOT]) (unmask0 cur rest).
Proof.
  induction rest as [|d r IH]; intros pre cur; cbn [unmask0].
  - cbn. now rewrite <- app_assoc.
  - rewrite strip_pre. cbn [fst snd]. destruct (Nat.odd (snd (stripBS cur))).
    + set (B := fst (stripBS cur) ++ bs (Nat.div2 (snd (stripBS cur)))).
      replace ((pre ++ DOT :: fst (stripBS cur)) ++ bs (Nat.div2 (snd (stripBS cur)))) with (pre ++ DOT :: B)
        by (unfold B; now rewrite <- app_assoc).
      rewrite (IH (pre ++ DOT :: B) d), (IH B d). destruct (unmask0 d r); cbn; [reflexivity|].
      f_equal. repeat (rewrite <- app_assoc; cbn [app]). reflexivity.
    + cbn [prep]. f_equal. rewrite <- !app_assoc. reflexivity.
Qed.

(** splitting at dots *)
Fixpoint splitDot (l : list ascii) : list ascii * list (list ascii) :=
  match l with
  | [] => ([], [])
  | c :: r => let '(h, t) := splitDot r in if Ascii.eqb c DOT then ([], h :: t) else (c :: h, t)
  end.
Lemma split_dot : forall l acc, split_aux [DOT] l 0 None acc = ofchars (rev acc ++ fst (splitDot l)) :: map ofchars (snd (splitDot l)).
Proof.
  induction l as [|c l IH]; intro acc; cbn [split_aux splitDot prefixL].
  - now rewrite app_nil_r.
  - destruct (splitDot l) as [h t] eqn:S. cbn [andb]. rewrite (Ascii.eqb_sym c DOT).
    destruct (Ascii.eqb_spec DOT c) as [<-|N]; cbn [andb length Nat.sub].
    + rewrite IH. cbn. now rewrite app_nil_r.
    + rewrite IH. cbn [rev fst snd]. rewrite <- app_assoc. reflexivity.
Qed.
Lemma pathOf_chars : forall name,
  pathOf name = option_map (map ofchars) (unmask (fst (splitDot (chars name))) (snd (splitDot (chars name)))).
Proof.
  intro name. unfold pathOf, split, splitN. cbn [Z.eqb Z.ltb Z.compare]. change (chars ".") with [DOT].
  rewrite split_dot. cbn [rev app]. rewrite chars_ofchars, map_map.
  replace (map (fun x => chars (ofchars x)) (snd (splitDot (chars name)))) with (snd (splitDot (chars name))); [reflexivity|].
  symmetry. rewrite <- (map_id (snd _)) at 2. apply map_ext. apply chars_ofchars.
Qed.
Lemma splitDot_nodot : forall w t, ~ In DOT w -> splitDot (w ++ DOT :: t) = (w, fst (splitDot t) :: snd (splitDot t)).
Proof.
  induction w as [|c w IH]; intros t N; cbn [app splitDot].
  - destruct (splitDot t). reflexivity.
  - rewrite IH by (intro; apply N; now right). destruct (Ascii.eqb_spec c DOT) as [->|]; [elim N; now left|reflexivity].
Qed.
Lemma splitDot_last : forall w, ~ In DOT w -> splitDot w = (w, []).
Proof.
  induction w as [|c w IH]; intro N; [reflexivity|]. cbn [splitDot].
  rewrite IH by (intro; apply N; now right). destruct (Ascii.eqb_spec c DOT) as [->|]; [elim N; now left|reflexivity].
Qed.
Lemma nodot_bs : forall w k, ~ In DOT w -> ~ In DOT (w ++ bs k).
Proof.
  intros w k N H. apply in_app_or in H. destruct H as [H|H]; [auto|]. apply repeat_spec in H. discriminate.
Qed.
Lemma splitDot_join : forall l, match snd (splitDot l) with
  | [] => l = fst (splitDot l) /\ ~ In DOT l
  | d :: r => exists t, l = fst (splitDot l) ++ DOT :: t /\ ~ In DOT (fst (splitDot l)) /\ splitDot t = (d, r)
  end.
Proof.
  induction l as [|c l IH]; [split; auto|]. cbn [splitDot]. destruct (splitDot l) as [h t] eqn:S. cbn [fst snd] in IH.
  destruct (Ascii.eqb_spec c DOT) as [->|N]; cbn [fst snd].
  - exists l. split; [reflexivity|]. split; [now intros []|]. exact S.
  - destruct t as [|d r].
    + destruct IH as [-> IH]. split; [reflexivity|]. intros [E|E]; congruence || contradiction.
    + destruct IH as (t & -> & D & E). exists t. split; [reflexivity|]. split; [|exact E].
      intros [X|X]; congruence || contradiction.
Qed.

Lemma spells_unmask0 : forall t c, spells t c <-> unmask0 (fst (splitDot t)) (snd (splitDot t)) = c.
Proof.
  intros t c. split.
  - induction 1 as [c N|w k t c [P Q] H IH|w k t c0 c [P Q] H IH].
    + now rewrite splitDot_last.
    + rewrite app_assoc, splitDot_nodot by now apply nodot_bs. cbn [fst snd unmask0].
      rewrite strip_bs by exact Q. cbn [fst snd]. rewrite odd2, half2, IH. reflexivity.
    + rewrite app_assoc, splitDot_nodot by now apply nodot_bs. cbn [fst snd unmask0].
      rewrite strip_bs by exact Q. cbn [fst snd]. rewrite odd21, half21, unmask0_pre, IH. cbn.
      rewrite <- !app_assoc. reflexivity.
  - intros <-. remember (length (snd (splitDot t))) as n eqn:L. revert t L. induction n as [|n IH]; intros t L;
      pose proof (splitDot_join t) as J; destruct (snd (splitDot t)) as [|d r] eqn:S; try discriminate.
    + destruct J as [E N]. cbn [unmask0]. rewrite <- E. now constructor.
    + destruct J as (t' & E & N & S'). cbn [unmask0]. destruct (stripBS (fst (splitDot t))) as [w k] eqn:B.
      destruct (strip_spec _ _ _ B) as [E2 Q]. cbn [fst snd].
      assert (P : piece w). { split; [|exact Q]. intro X. apply N. rewrite E2. apply in_or_app. now left. }
      cbn [length] in L. inversion L as [L'].
      specialize (IH t'). rewrite S' in IH. cbn [fst snd] in IH. specialize (IH L').
      rewrite E, E2, <- app_assoc. destruct (Nat.odd k) eqn:O.
      * pose proof (Nat.div2_odd k) as K. rewrite O in K. cbn [Nat.b2n] in K.
        rewrite unmask0_pre. pose proof (unmask0_ne r d) as X. destruct (unmask0 d r) as [|c0 c]; [congruence|].
        rewrite K at 1. cbn [prep]. rewrite <- !app_assoc. cbn [app]. now apply spell_dot.
      * pose proof (Nat.div2_odd k) as K. rewrite O in K. cbn [Nat.b2n] in K. rewrite Nat.add_0_r in K.
        rewrite K at 1. now apply spell_sep.
Qed.

(** C39: the path of a name is the one it spells; names with an empty component
    but the last one are rejected *)
Theorem C39_path : forall name p,
  pathOf name = Some p <-> spells (chars name) (map chars p) /\ noEmpty (map chars p).
Proof.
  intros name p. rewrite pathOf_chars, spells_unmask0.
  destruct (unmask (fst (splitDot (chars name))) (snd (splitDot (chars name)))) as [c|] eqn:U; cbn [option_map].
  - pose proof U as U'. apply unmask_spec in U. destruct U as [U N]. rewrite U. split.
    + intro E. inversion E. subst. rewrite map_map.
      replace (map (fun x => chars (ofchars x)) _) with (unmask0 (fst (splitDot (chars name))) (snd (splitDot (chars name)))).
      * split; [reflexivity|exact N].
      * symmetry. rewrite <- (map_id (unmask0 _ _)) at 2. apply map_ext. apply chars_ofchars.
    + intros [-> _]. f_equal. rewrite map_map. rewrite <- (map_id p) at 2. apply map_ext. apply ofchars_chars.
  - split; [discriminate|]. intros [E N]. exfalso.
    assert (X : unmask (fst (splitDot (chars name))) (snd (splitDot (chars name))) = Some (map chars p))
      by (apply unmask_spec; now split).
    congruence.
Qed.

(** every path without empty inner components has a spelling *)
Lemma spell_component : forall n x, (length x <= n)%nat ->
  (exists t, spells t [x]) /\ (forall t c, spells t c -> exists t', spells t' (x :: c)).
Proof.
  induction n as [|n IH]; intros x L; pose proof (splitDot_join x) as J.
  - destruct x; [|cbn in L; lia]. split.
    + exists []. constructor. now intros [].
    + intros t c H. exists (DOT :: t). apply (spell_sep [] 0 t c); auto. split; [now intros []|now destruct v].
  - destruct (snd (splitDot x)) as [|d r].
    + destruct J as [_ N]. split; [exists x; now constructor|]. intros t c H.
      destruct (stripBS x) as [w k] eqn:B. destruct (strip_spec _ _ _ B) as [-> Q].
      exists (w ++ bs (2 * k) ++ DOT :: t). apply spell_sep; auto. split; auto.
      intro X. apply N. apply in_or_app. now left.
    + destruct J as (x' & E & N & _). set (h := fst (splitDot x)) in *. clearbody h. subst x.
      rewrite app_length in L. cbn [length] in L. destruct (IH x' ltac:(lia)) as [A B].
      destruct (stripBS h) as [w k] eqn:S. destruct (strip_spec _ _ _ S) as [-> Q].
      assert (P : piece w). { split; auto. intro X. apply N. apply in_or_app. now left. }
      rewrite <- app_assoc. split.
      * destruct A as [t A]. exists (w ++ bs (2 * k + 1) ++ DOT :: t). now apply spell_dot.
      * intros t c H. destruct (B t c H) as [t' T]. exists (w ++ bs (2 * k + 1) ++ DOT :: t'). now apply spell_dot.
Qed.
Theorem C39_addressable : forall p, p <> [] -> Forall (fun x => x <> ""%string) (removelast p) ->
  exists name, pathOf name = Some p.
Proof.
  intros p NE F.
  assert (H : exists t, spells t (map chars p)).
  { clear F. induction p as [|x p IH]; [congruence|]. destruct (spell_component _ (chars x) (le_n _)) as [A B].
    destruct p as [|y p]; [exact A|]. destruct IH as [t T]; [discriminate|]. exact (B _ _ T). }
  destruct H as [t T]. exists (ofchars t). apply C39_path. rewrite chars_ofchars. split; [exact T|].
  unfold noEmpty. clear T. induction p as [|x p IH]; [constructor|]. destruct p as [|y p]; [constructor|].
  cbn [map removelast] in *. inversion F; subst. constructor; [|apply IH; [discriminate|assumption]].
  destruct x; [congruence|discriminate].
Qed.

(** * Setting *)

Lemma at_cons : forall m c p, at_ m (c :: p) = match mget c m with Some n => find true true p n | None => FNo end.
Proof. intros. unfold at_. cbn. destruct (mget c m); reflexivity. Qed.
Lemma at_map : forall n m p, val n = VMap m -> p <> [] -> find true true p n = at_ m p.
Proof.
  intros n m p V NE. destruct p as [|c p]; [congruence|]. rewrite at_cons. cbn [find]. unfold nextStep. rewrite V. cbn [orb].
  destruct (mget c m); reflexivity.
Qed.
Lemma val_replace : forall v n, val (replaceValue v n) = v.
Proof. now intros v []. Qed.
Lemma below_cons : forall c p q, below (c :: p) (c :: q) <-> below p q.
Proof. intros. split; intros [r H]; exists r; cbn in *; congruence. Qed.

(** what one step of [setAt] does *)
Definition sub (m : smap node) (c : string) : option (smap node) :=
  match mget c m with None => Some [] | Some n => match val n with VMap x => Some x | _ => None end end.
Definition wrap (m : smap node) (c : string) (x : smap node) : node :=
  match mget c m with None => newNode (VMap x) "<values>" | Some n => replaceValue (VMap x) n end.
Lemma setAt_cons : forall m c d r v, setAt m (c :: d :: r) v =
  match sub m c with Some x => option_map (fun y => mset c (wrap m c y) m) (setAt x (d :: r) v) | None => None end.
Proof.
  intros. cbn [setAt]. unfold sub, wrap. destruct (mget c m) as [n|]; [|reflexivity].
  destruct (val n); reflexivity.
Qed.
Lemma val_wrap : forall m c x, val (wrap m c x) = VMap x.
Proof. intros. unfold wrap. destruct (mget c m); [apply val_replace|reflexivity]. Qed.
Lemma at_sub : forall m c x q, sub m c = Some x -> q <> [] -> at_ m (c :: q) = at_ x q.
Proof.
  intros m c x q S NE. rewrite at_cons. unfold sub in S. destruct (mget c m) as [n|] eqn:G.
  - destruct (val n) eqn:V; try discriminate. inversion S. subst. now apply at_map.
  - inversion S. subst. destruct q; [congruence|]. now rewrite at_cons.
Qed.

Theorem C39_set : forall m name v m' p, addValue m name v = Some m' -> pathOf name = Some p ->
  (forall q, at_ m' (p ++ q) = find true true q v)
  /\ (forall q, apart p q -> at_ m' q = at_ m q)
  /\ (forall q r, p = q ++ r -> q <> [] -> r <> [] -> exists n x, at_ m' q = FOk n /\ val n = VMap x).
Proof.
  intros m name v m' p A P. unfold addValue in A. rewrite P in A. clear P name.
  revert m m' A. induction p as [|c p IH]; [discriminate|]. intros m m' A. destruct p as [|d p].
  - cbn [setAt] in A. inversion A. subst. split; [|split].
    + intro q. cbn [app]. now rewrite at_cons, mget_mset_same.
    + intros q [N1 N2]. destruct q as [|e q]; [elim N2; now exists [c]|].
      rewrite !at_cons. rewrite mget_mset_other; [reflexivity|]. intros ->. apply N1. now exists q.
    + intros q r E Q R. destruct q as [|? [|]]; cbn in E; try congruence.
  - rewrite setAt_cons in A. destruct (sub m c) as [x|] eqn:S; [|discriminate].
    destruct (setAt x (d :: p) v) as [y|] eqn:Y; [|discriminate]. inversion A. subst. clear A.
    destruct (IH _ _ Y) as (I1 & I2 & I3).
    assert (G : forall q, q <> [] -> at_ (mset c (wrap m c y) m) (c :: q) = at_ y q).
    { intros q NE. rewrite at_cons, mget_mset_same. apply at_map; [apply val_wrap|exact NE]. }
    split; [|split].
    + intro q. cbn [app]. rewrite G by discriminate. apply I1.
    + intros q [N1 N2]. destruct q as [|e q]; [elim N2; now exists (c :: d :: p)|].
      destruct (String.eqb_spec e c) as [->|NE].
      * assert (Q : q <> []). { intros ->. apply N2. now exists (d :: p). }
        rewrite G by exact Q. rewrite (at_sub _ _ _ _ S Q). apply I2. split; intro B; [apply N1|apply N2]; now apply below_cons.
      * now rewrite !at_cons, mget_mset_other.
    + intros q r E Q R. destruct q as [|e q]; [congruence|]. cbn in E. inversion E. subst e.
      destruct q as [|e q].
      * exists (wrap m c y), y. rewrite at_cons, mget_mset_same. split; [reflexivity|apply val_wrap].
      * rewrite G by discriminate. eapply I3; eauto. discriminate.
Qed.
(** setting fails iff a field on the way exists and is no map *)
Theorem C39_error : forall m name v p, pathOf name = Some p ->
  (addValue m name v = None <->
   exists q r n, p = q ++ r /\ q <> [] /\ r <> [] /\ at_ m q = FOk n /\ forall x, val n <> VMap x).
Proof.
  intros m name v p P. unfold addValue. rewrite P.
  assert (NE : p <> []).
  { intros ->. apply C39_path in P. destruct P as [P _]. inversion P. }
  clear P name. revert m. induction p as [|c p IH]; [congruence|]. intro m. destruct p as [|d p].
  - cbn [setAt]. split; [discriminate|]. intros (q & r & n & E & Q & R & _). destruct q as [|? [|]]; cbn in E; congruence.
  - rewrite setAt_cons. specialize (IH ltac:(discriminate)). destruct (sub m c) as [x|] eqn:S.
    + transitivity (setAt x (d :: p) v = None).
      { destruct (setAt x (d :: p) v); cbn; split; congruence. }
      rewrite (IH x). split.
      * intros (q & r & n & E & Q & R & F & N). exists (c :: q), r, n. repeat split; auto; [now rewrite E|discriminate|].
        now rewrite (at_sub _ _ _ _ S Q).
      * intros (q & r & n & E & Q & R & F & N). destruct q as [|e q]; [congruence|]. cbn in E. inversion E. subst e.
        destruct q as [|e q].
        { exfalso. rewrite at_cons in F. unfold sub in S. destruct (mget c m) as [k|]; [|discriminate].
          cbn in F. inversion F. subst k. destruct (val n); try discriminate. now apply (N m0). }
        exists (e :: q), r, n. repeat split; auto; try discriminate.
        now rewrite <- (at_sub _ _ _ (e :: q) S ltac:(discriminate)).
    + split; [intros _|reflexivity]. unfold sub in S. destruct (mget c m) as [n|] eqn:G; [|discriminate].
      exists [c], (d :: p), n. repeat split; try discriminate.
      * rewrite at_cons, G. reflexivity.
      * intros y V. now rewrite V in S.
Qed.

(** * The order of the definitions *)

Lemma wf_sub : forall m c x, wfmap m -> sub m c = Some x -> wfmap x.
Proof.
  intros m c x [S F] E. unfold sub in E. destruct (mget c m) as [n|] eqn:G.
  - destruct (val n) eqn:V; try discriminate. inversion E. subst.
    rewrite Forall_forall in F. specialize (F _ (mget_In _ _ _ G)). cbn in F.
    rewrite (node_eta n), V in F. apply wf_map in F. exact F.
  - inversion E. split; constructor.
Qed.
Lemma wf_mset : forall m c n, wfmap m -> wfN n -> wfmap (mset c n m).
Proof.
  intros m c n [S F] W. split; [now apply msorted_mset|]. rewrite Forall_forall in *. intros [k x] I. cbn.
  pose proof (msorted_mset c n m S) as S'.
  apply (In_mget _ _ _ (msorted_NoDup _ S')) in I. rewrite mget_mset in I. destruct (String.eqb k c).
  - inversion I. now subst.
  - apply mget_In in I. exact (F _ I).
Qed.
Lemma wf_wrap : forall m c x, wfmap x -> wfN (wrap m c x).
Proof. intros m c x W. apply wfN_val. rewrite val_wrap. now apply wf_map. Qed.
Lemma wf_setAt : forall p m v m', wfmap m -> wfN v -> setAt m p v = Some m' -> wfmap m'.
Proof.
  induction p as [|c p IH]; [discriminate|]. intros m v m' W V. destruct p as [|d p].
  - cbn [setAt]. intro E. inversion E. now apply wf_mset.
  - rewrite setAt_cons. destruct (sub m c) as [x|] eqn:S; [|discriminate].
    destruct (setAt x (d :: p) v) as [y|] eqn:Y; [|discriminate]. intro E. inversion E.
    apply wf_mset; auto. apply wf_wrap. apply (IH x v y); auto. exact (wf_sub _ _ _ W S).
Qed.
(** setting below a key changes this key only, depending on its node only *)
Definition stepNode (o : option node) (r : list string) (v : node) : option node :=
  match r with
  | [] => Some v
  | _ => match o with
         | None => option_map (fun x => newNode (VMap x) "<values>") (setAt [] r v)
         | Some n => match val n with VMap x => option_map (fun y => replaceValue (VMap y) n) (setAt x r v) | _ => None end
         end
  end.
Lemma setAt_step : forall m c r v, setAt m (c :: r) v = option_map (fun n => mset c n m) (stepNode (mget c m) r v).
Proof.
  intros m c r v. destruct r as [|d r]; [reflexivity|]. rewrite setAt_cons. unfold stepNode, sub, wrap.
  destruct (mget c m) as [n|].
  - destruct (val n); try reflexivity. generalize (setAt m0 (d :: r) v). now intros [].
  - generalize (setAt [] (d :: r) v). now intros [].
Qed.
Definition obind {A B} (o : option A) (f : A -> option B) : option B := match o with Some a => f a | None => None end.
Lemma setAt_comm : forall p q m v w, wfmap m -> apart p q ->
  obind (setAt m p v) (fun m' => setAt m' q w) = obind (setAt m q w) (fun m' => setAt m' p v).
Proof.
  induction p as [|c p IH]; intros q m v w W [N1 N2]; [elim N1; now exists q|].
  destruct q as [|e q]; [elim N2; now exists (c :: p)|].
  destruct (String.eqb_spec c e) as [->|NE].
  - destruct p as [|d p]; [elim N1; now exists q|]. destruct q as [|d' q]; [elim N2; now exists (d :: p)|].
    rewrite !setAt_cons. destruct (sub m e) as [x|] eqn:S; [|reflexivity].
    specialize (IH (d' :: q) x v w (wf_sub _ _ _ W S)).
    assert (A : apart (d :: p) (d' :: q)) by (split; intro B; [apply N1|apply N2]; now apply below_cons).
    specialize (IH A).
    assert (X : forall y r v', setAt (mset e (wrap m e y) m) (e :: d' :: r) v' = option_map (fun z => mset e (wrap m e z) m) (setAt y (d' :: r) v')).
    { intros. rewrite setAt_cons. unfold sub. rewrite mget_mset_same, val_wrap.
      destruct (setAt y (d' :: r) v') as [z|]; [|reflexivity]. cbn [option_map]. f_equal. rewrite mset_twice by apply W.
      f_equal. unfold wrap at 1. rewrite mget_mset_same. unfold wrap. now destruct (mget e m) as [[]|]. }
    assert (X' : forall y r v', setAt (mset e (wrap m e y) m) (e :: d :: r) v' = option_map (fun z => mset e (wrap m e z) m) (setAt y (d :: r) v')).
    { intros. rewrite setAt_cons. unfold sub. rewrite mget_mset_same, val_wrap.
      destruct (setAt y (d :: r) v') as [z|]; [|reflexivity]. cbn [option_map]. f_equal. rewrite mset_twice by apply W.
      f_equal. unfold wrap at 1. rewrite mget_mset_same. unfold wrap. now destruct (mget e m) as [[]|]. }
    destruct (setAt x (d :: p) v) as [y|], (setAt x (d' :: q) w) as [z|]; cbn [option_map obind] in *;
      rewrite ?X, ?X'; first [reflexivity | rewrite IH; reflexivity | rewrite <- IH; reflexivity].
  - rewrite !setAt_step.
    destruct (stepNode (mget c m) p v) as [y|] eqn:Y, (stepNode (mget e m) q w) as [z|] eqn:Z;
      cbn [option_map obind]; rewrite ?setAt_step, ?mget_mset_other by congruence; rewrite ?Y, ?Z; cbn [option_map]; try reflexivity.
    f_equal. apply mset_comm; [apply W|congruence].
Qed.

Lemma wf_def : forall s, wfN (defNode s).
Proof. intro s. unfold defNode. destruct (parseInt s); exact Logic.I. Qed.

(** the paths of two definitions are apart *)
Definition defsApart (a b : string * string) : Prop :=
  forall p q, pathOf (fst a) = Some p -> pathOf (fst b) = Some q -> apart p q.
Lemma defsApart_sym : forall a b, defsApart a b -> defsApart b a.
Proof. intros a b H p q P Q. destruct (H q p Q P). split; auto. Qed.
Lemma addValues_cons : forall m k v r, addValues m ((k, v) :: r) =
  obind (pathOf k) (fun p => obind (setAt m p (defNode v)) (fun m' => addValues m' r)).
Proof.
  intros. cbn [addValues]. unfold addValue. destruct (pathOf k); [|reflexivity]. cbn [obind].
  destruct (setAt _ _ _); reflexivity.
Qed.
Lemma FOP_perm {A} (R : A -> A -> Prop) : (forall a b, R a b -> R b a) -> forall l l', Permutation l l' ->
  ForallOrdPairs R l -> ForallOrdPairs R l'.
Proof.
  intros Sy l l' P. induction P as [|x l l' P IH|x y l|l1 l2 l3 P1 IH1 P2 IH2]; auto; intro F.
  - inversion F; subst. constructor; auto. now rewrite <- P.
  - inversion F as [|? ? F1 F2]; subst. inversion F2 as [|? ? F3 F4]; subst. inversion F1; subst.
    constructor; [constructor; auto|]. constructor; auto.
Qed.
(** C39: definitions with paths apart from each other have the same result in every
    order; so the traversal of the Go map does not matter *)
Theorem C39_order : forall l l' m, Permutation l l' -> ForallOrdPairs defsApart l -> wfmap m ->
  addValues m l = addValues m l'.
Proof.
  intros l l' m P. revert m. induction P as [|[k v] l l' P IH|[k v] [k' v'] l|l1 l2 l3 P1 IH1 P2 IH2]; intros m F W.
  - reflexivity.
  - rewrite !addValues_cons. inversion F; subst. destruct (pathOf k) as [p|]; [|reflexivity]. cbn [obind].
    destruct (setAt m p (defNode v)) as [m'|] eqn:E; [|reflexivity]. cbn [obind].
    apply IH; auto. eapply wf_setAt; eauto using wf_def.
  - inversion F as [|? ? F1 F2]; subst. inversion F1 as [|? ? F3 F4]; subst.
    rewrite !addValues_cons. unfold defsApart in F3. cbn [fst] in F3.
    destruct (pathOf k) as [p|] eqn:P, (pathOf k') as [p'|] eqn:P'; cbn [obind].
    + specialize (F3 p' p eq_refl eq_refl). pose proof (setAt_comm p p' m (defNode v) (defNode v') W) as C.
      specialize (C (conj (proj2 F3) (proj1 F3))).
      destruct (setAt m p (defNode v)) as [a|], (setAt m p' (defNode v')) as [b|]; cbn [obind] in *;
        rewrite ?addValues_cons, ?P, ?P'; cbn [obind]; first [reflexivity | rewrite C; reflexivity | rewrite <- C; reflexivity].
    + destruct (setAt _ _ _); [|reflexivity]. cbn [obind]. rewrite addValues_cons, P'. reflexivity.
    + destruct (setAt _ _ _); [|reflexivity]. cbn [obind]. rewrite addValues_cons, P. reflexivity.
    + reflexivity.
  - rewrite IH1 by auto. apply IH2; auto. eapply FOP_perm; eauto. apply defsApart_sym.
Qed.
(** otherwise the outcome depends on the order, which the code leaves to the
    traversal of a Go map: -D a=1 -D a.b=2 *)
Theorem C39_order_refuted : exists l l', Permutation l l' /\ NoDup (map fst l) /\
  addValues [] l = None /\ exists m, addValues [] l' = Some m /\ at_ m ["a"%string] = FOk (defNode "1").
Proof.
  exists [("a", "1"); ("a.b", "2")]%string, [("a.b", "2"); ("a", "1")]%string.
  split; [constructor|]. split; [constructor; [intros [E|[]]; discriminate|constructor; [intros []|constructor]]|].
  split; [reflexivity|]. eexists. split; reflexivity.
Qed.

(** C39: all definitions of a successful run are found at their paths, all else is as
    before *)
Theorem C39_all : forall l m m', addValues m l = Some m' -> ForallOrdPairs defsApart l ->
  (forall k v, In (k, v) l -> exists p, pathOf k = Some p /\ at_ m' p = FOk (defNode v))
  /\ (forall q, (forall k v p, In (k, v) l -> pathOf k = Some p -> apart p q) -> at_ m' q = at_ m q).
Proof.
  induction l as [|[k v] l IH]; intros m m' A F.
  - inversion A. subst. split; [intros ? ? []|auto].
  - cbn [addValues] in A. destruct (addValue m k (defNode v)) as [m1|] eqn:E; [|discriminate].
    assert (P : exists p, pathOf k = Some p). { unfold addValue in E. destruct (pathOf k); [eauto|discriminate]. }
    destruct P as [p P]. destruct (C39_set _ _ _ _ _ E P) as (S1 & S2 & _).
    inversion F as [|? ? F1 F2]; subst. destruct (IH _ _ A F2) as [I1 I2]. split.
    + intros k' v' [X|X].
      * inversion X. subst. exists p. split; [exact P|]. rewrite I2.
        { specialize (S1 []). rewrite app_nil_r in S1. exact S1. }
        intros k1 v1 p1 H1 H2. rewrite Forall_forall in F1. specialize (F1 _ H1 p p1 P H2).
        destruct F1 as [A1 A2]. split; assumption.
      * exact (I1 _ _ X).
    + intros q H. rewrite I2; [apply S2; apply (H k v); [now left|exact P]|]. intros k1 v1 p1 H1 H2. apply (H k1 v1); [now right|exact H2].
Qed.

(** * The arguments *)
Lemma splitEq : forall s, exists h t, split s "=" = h :: t.
Proof.
  intro s. unfold split, splitN. cbn [Z.eqb Z.ltb Z.compare]. change (chars "=") with ["="%char].
  pose proof (split_aux_ne ["="%char] (chars s) 0 None []). destruct (split_aux _ _ _ _ _); [congruence|eauto].
Qed.
Theorem C39_argument : forall s k v,
  parseDef s = Some (k, v) <-> s = (k +++ "=" +++ v)%string /\ k <> ""%string
    /\ ~ In "="%char (chars k) /\ ~ In "="%char (chars v).
Proof.
  intros s k v. unfold parseDef. split.
  - pose proof (splitN_join s "=" (-1) ltac:(discriminate) ltac:(lia)) as J. fold (split s "=") in J.
    assert (N : forall p, In p (split s "=") -> ~ In "="%char (chars p)).
    { intros p H X. unfold split, splitN in H. cbn [Z.eqb Z.ltb Z.compare] in H.
      apply in_split in X. destruct X as (a & b & X).
      apply (split_pieces (chars "=") (chars s) ltac:(discriminate) 0 [] (or_introl eq_refl)
               ltac:(cbn; intros; lia) p H (length a)).
      exists a, b. rewrite X. split; reflexivity. }
    destruct (split s "=") as [|x [|y [|z l]]]; try discriminate.
    destruct (String.eqb_spec x "") as [->|E]; [discriminate|]. intro H. inversion H. subst.
    split; [reflexivity|]. split; [exact E|]. split; apply N; [now left|right; now left].
  - intros (-> & E & K & V). unfold split, splitN. cbn [Z.eqb Z.ltb Z.compare].
    change (k +++ "=" +++ v)%string with (joinS (schr "=") [k; v]). change (chars "=") with ["="%char].
    rewrite split_char; [|discriminate|repeat constructor; auto]. cbn [rev app]. rewrite ofchars_chars.
    destruct (String.eqb_spec k ""); [contradiction|reflexivity].
Qed.
(** all arguments must be definitions; the last one for a key counts *)
Theorem C39_arguments : forall l m, parseDefs l [] = Some m ->
  (forall s, In s l -> exists k v, parseDef s = Some (k, v))
  /\ forall k v, mget k m = Some v <->
       exists l1 s l2, l = l1 ++ s :: l2 /\ parseDef s = Some (k, v)
         /\ forall s' v', In s' l2 -> parseDef s' <> Some (k, v').
Proof.
  assert (G : forall l m0 m, parseDefs l m0 = Some m ->
    (forall s, In s l -> exists k v, parseDef s = Some (k, v))
    /\ forall k v, mget k m = Some v <->
       (exists l1 s l2, l = l1 ++ s :: l2 /\ parseDef s = Some (k, v)
          /\ forall s' v', In s' l2 -> parseDef s' <> Some (k, v'))
       \/ (mget k m0 = Some v /\ forall s' v', In s' l -> parseDef s' <> Some (k, v'))).
  { induction l as [|s l IH]; intros m0 m H; cbn [parseDefs] in H.
    - inversion H. subst. split; [intros ? []|]. intros k v. split.
      + intro G. right. split; [exact G|]. intros ? ? [].
      + intros [(l1 & s & l2 & E & _)|[G _]]; [now destruct l1|exact G].
    - destruct (parseDef s) as [[k0 v0]|] eqn:P; [|discriminate]. destruct (IH _ _ H) as [A B]. split.
      + intros s' [<-|X]; [exists k0, v0; exact P|auto].
      + intros k v. rewrite B. rewrite mget_mset. split.
        * intros [(l1 & s' & l2 & -> & Q & N)|[G N]].
          { left. exists (s :: l1), s', l2. auto. }
          destruct (String.eqb_spec k k0) as [->|D].
          { inversion G. subst. left. exists [], s, l. auto. }
          right. split; [exact G|]. intros s' v' [<-|X]; [congruence|auto].
        * intros [(l1 & s' & l2 & E & Q & N)|[G N]].
          { destruct l1 as [|x l1]; cbn in E; inversion E; subst.
            - right. rewrite P in Q. inversion Q. subst. rewrite String.eqb_refl. auto.
            - left. exists l1, s', l2. auto. }
          right. destruct (String.eqb_spec k k0) as [->|D].
          { elim (N s v0); [now left|exact P]. }
          split; [exact G|]. intros s' v' X. apply N. now right. }
  intros l m H. destruct (G _ _ _ H) as [A B]. split; [exact A|]. intros k v. rewrite B. split.
  - intros [X|[X _]]; [exact X|discriminate].
  - intro X. now left.
Qed.

(** * Examples *)
Example C39_spelling :
  map pathOf ["a.b"; "a\.b"; "a\\.b"; "a\\\.b.c"; "a\b.c\"; ".a"; "a."; "\.a"]%string
  = [Some ["a"; "b"]; Some ["a.b"]; Some ["a\"; "b"]; Some ["a\.b"; "c"]; Some ["a\b"; "c\"]; None; Some ["a"; ""]; Some [".a"]]%string.
Proof. reflexivity. Qed.
Definition exM : smap node := [("a"%string, newNode (VMap [("x"%string, newNode (VInt 1) "f")]) "f"); ("l"%string, newNode (VInt 2) "f")].
Example C39_run :
  exists m, addValues exM [("a.b\.c.d", "5"); ("n.k", "text")]%string = Some m
    /\ at_ m ["a"; "b.c"; "d"]%string = FOk (newNode (VInt 5) "<values>")
    /\ at_ m ["a"; "x"]%string = FOk (newNode (VInt 1) "f")
    /\ at_ m ["n"; "k"]%string = FOk (newNode (VStr "text") "<values>")
    /\ addValues exM [("l.k", "text")]%string = None.
Proof. eexists. repeat split. Qed.
Example C39_run_apart : ForallOrdPairs defsApart [("a.b\.c.d", "5"); ("n.k", "text")]%string /\ wfmap exM.
Proof.
  split.
  - constructor; [constructor; [|constructor]|constructor; constructor]. intros p q P Q. vm_compute in P, Q. inversion P; subst. inversion Q; subst.
    split; intros [r E]; discriminate.
  - split; [|constructor; [|constructor; [|constructor]]; cbn; repeat split; intros ? []].
    apply (mof_sorted exM).
Qed.

Print Assumptions C39_path.
Print Assumptions C39_addressable.
Print Assumptions C39_set.
Print Assumptions C39_error.
Print Assumptions C39_order.
Print Assumptions C39_order_refuted.
Print Assumptions C39_all.
Print Assumptions C39_argument.
Print Assumptions C39_arguments.
