(** Facts about Core: maps, strings order, induction on nodes, wrap64. *)
From Coq Require Import Lia Structures.OrdersEx.
From Verif Require Import Core.

(** ** String order *)
Lemma scmp_refl s : String.compare s s = Eq.
Proof.
  pose proof (String_as_OT.compare_spec s s) as H.
  change (String_as_OT.compare s s) with (String.compare s s) in H.
  inversion H as [Heq Hc|Hlt Hc|Hlt Hc]; try congruence;
    exfalso; destruct String_as_OT.lt_strorder as [Hi _]; exact (Hi s Hlt).
Qed.

Lemma scmp_eq s t : String.compare s t = Eq <-> s = t.
Proof. split; [apply String.compare_eq_iff | intros ->; apply scmp_refl]. Qed.

Lemma scmp_trans a b c : String.compare a b = Lt -> String.compare b c = Lt -> String.compare a c = Lt.
Proof.
  intros H1 H2.
  destruct String_as_OT.lt_strorder as [_ Ht]; exact (Ht a b c H1 H2).
Qed.

Lemma scmp_gt a b : String.compare a b = Gt <-> String.compare b a = Lt.
Proof.
  rewrite (String.compare_antisym a b). destruct (String.compare b a); simpl; split; congruence.
Qed.

Lemma scmp_lt_neq a b : String.compare a b = Lt -> a <> b.
Proof. intros H ->. rewrite scmp_refl in H. discriminate. Qed.

Lemma eqb_false_neq a b : String.eqb a b = false <-> a <> b.
Proof. apply String.eqb_neq. Qed.

(** ** Maps *)
Section Maps.
Context {A : Type}.
Implicit Types m : smap A.

Lemma mget_In k m v : mget k m = Some v -> In (k, v) m.
Proof.
  induction m as [|[k' v'] r IH]; simpl; [discriminate|].
  destruct (String.eqb_spec k k') as [->|Hn]; intro H.
  - left. congruence.
  - right. auto.
Qed.

Lemma mget_None k m : mget k m = None <-> ~ In k (mkeys m).
Proof.
  induction m as [|[k' v'] r IH]; simpl; [tauto|].
  destruct (String.eqb_spec k k') as [->|Hn].
  - split; [discriminate|]. intro H. exfalso. apply H. left. reflexivity.
  - rewrite IH. unfold mkeys. split; intros H.
    + intros [He|Hi]; [congruence|auto].
    + intro Hi. apply H. auto.
Qed.

Lemma mget_Some_key k m v : mget k m = Some v -> In k (mkeys m).
Proof. intro H. apply mget_In in H. apply (in_map fst) in H. exact H. Qed.

Lemma key_mget k m : In k (mkeys m) -> exists v, mget k m = Some v.
Proof.
  intro H. destruct (mget k m) as [v|] eqn:E; [eauto|].
  apply mget_None in E. contradiction.
Qed.

Lemma msorted_NoDup m : msorted m -> NoDup (mkeys m).
Proof.
  induction m as [|[k v] r IH]; simpl; intros H; [constructor|].
  destruct H as [Hk Hr]. constructor; [|auto].
  intro Hi. apply Hk in Hi. rewrite scmp_refl in Hi. discriminate.
Qed.

Lemma In_mget k v m : NoDup (mkeys m) -> In (k, v) m -> mget k m = Some v.
Proof.
  induction m as [|[k' v'] r IH]; simpl; intros Hn Hi; [contradiction|].
  inversion Hn as [|x l Hx Hl]; subst.
  destruct Hi as [He|Hi].
  - inversion He; subst. rewrite String.eqb_refl. reflexivity.
  - destruct (String.eqb_spec k k') as [->|Hne].
    + exfalso. apply Hx. apply (in_map fst) in Hi. exact Hi.
    + auto.
Qed.

Lemma mget_mset_same k v m : mget k (mset k v m) = Some v.
Proof.
  induction m as [|[k' v'] r IH]; simpl; [rewrite String.eqb_refl; reflexivity|].
  destruct (String.compare k k') eqn:E; simpl.
  - rewrite String.eqb_refl. reflexivity.
  - rewrite String.eqb_refl. reflexivity.
  - destruct (String.eqb_spec k k') as [->|Hn]; [rewrite scmp_refl in E; discriminate|exact IH].
Qed.

Lemma mget_mset_other k k' v m : k <> k' -> mget k (mset k' v m) = mget k m.
Proof.
  intro Hne. induction m as [|[k2 v2] r IH]; simpl.
  - destruct (String.eqb_spec k k'); [contradiction|reflexivity].
  - destruct (String.compare k' k2) eqn:E; simpl.
    + apply scmp_eq in E. subst k2.
      destruct (String.eqb_spec k k'); [contradiction|reflexivity].
    + destruct (String.eqb_spec k k'); [contradiction|reflexivity].
    + destruct (String.eqb_spec k k2); [reflexivity|exact IH].
Qed.

Lemma mget_mset k k' v m :
  mget k (mset k' v m) = if String.eqb k k' then Some v else mget k m.
Proof.
  destruct (String.eqb_spec k k') as [->|Hn]; [apply mget_mset_same|apply mget_mset_other; auto].
Qed.

Lemma mkeys_mset k v m x : In x (mkeys (mset k v m)) <-> x = k \/ In x (mkeys m).
Proof.
  induction m as [|[k' v'] r IH]; simpl; [intuition|].
  destruct (String.compare k k') eqn:E; simpl.
  - apply scmp_eq in E. subst k'. intuition.
  - intuition.
  - unfold mkeys in IH. rewrite IH. intuition.
Qed.

Lemma msorted_mset k v m : msorted m -> msorted (mset k v m).
Proof.
  induction m as [|[k' v'] r IH]; simpl; intros H; [split; [intros ? []|exact I]|].
  destruct H as [Hk Hr].
  destruct (String.compare k k') eqn:E; simpl.
  - apply scmp_eq in E. subst k'. auto.
  - split; [|auto]. intros x [He|Hi]; [subst; exact E|].
    eapply scmp_trans; [exact E|auto].
  - split; [|auto]. intros x Hi. apply (mkeys_mset k v r x) in Hi.
    destruct Hi as [->|Hi]; [apply scmp_gt in E; exact E|auto].
Qed.

Lemma mget_mdel k k' m : mget k (mdel k' m) = if String.eqb k k' then None else mget k m.
Proof.
  induction m as [|[k2 v2] r IH]; simpl.
  - destruct (String.eqb k k'); reflexivity.
  - destruct (String.eqb_spec k' k2) as [->|Hn].
    + rewrite IH. destruct (String.eqb_spec k k2); reflexivity.
    + simpl. rewrite IH. destruct (String.eqb_spec k k2) as [->|Hn2].
      * destruct (String.eqb_spec k2 k'); [congruence|reflexivity].
      * reflexivity.
Qed.

(** two sorted maps with the same lookups are equal *)
Lemma msorted_ext m1 m2 :
  msorted m1 -> msorted m2 -> (forall k, mget k m1 = mget k m2) -> m1 = m2.
Proof.
  revert m2. induction m1 as [|[k1 v1] r1 IH]; intros [|[k2 v2] r2] H1 H2 He.
  - reflexivity.
  - specialize (He k2). simpl in He. rewrite String.eqb_refl in He. discriminate.
  - specialize (He k1). simpl in He. rewrite String.eqb_refl in He. discriminate.
  - simpl in H1, H2. destruct H1 as [Hk1 Hr1], H2 as [Hk2 Hr2].
    assert (Hkk : k1 = k2).
    { destruct (String.compare k1 k2) eqn:E.
      - apply scmp_eq; exact E.
      - exfalso. pose proof (He k1) as Hx. simpl in Hx. rewrite String.eqb_refl in Hx.
        destruct (String.eqb_spec k1 k2) as [Heq|Hn]; [subst; rewrite scmp_refl in E; discriminate|].
        symmetry in Hx. apply mget_Some_key in Hx. apply Hk2 in Hx.
        apply scmp_lt_neq in Hx as Hx'. pose proof (scmp_trans _ _ _ E Hx) as Hy.
        rewrite scmp_refl in Hy. discriminate.
      - exfalso. apply scmp_gt in E. pose proof (He k2) as Hx. simpl in Hx. rewrite String.eqb_refl in Hx.
        destruct (String.eqb_spec k2 k1) as [Heq|Hn]; [subst; rewrite scmp_refl in E; discriminate|].
        apply mget_Some_key in Hx. apply Hk1 in Hx.
        pose proof (scmp_trans _ _ _ E Hx) as Hy. rewrite scmp_refl in Hy. discriminate. }
    subst k2. pose proof (He k1) as Hv. simpl in Hv. rewrite String.eqb_refl in Hv.
    inversion Hv; subst. f_equal. apply IH; auto.
    intro k. pose proof (He k) as Hx. simpl in Hx.
    destruct (String.eqb_spec k k1) as [E|Hn]; [|exact Hx]. subst k.
    assert (N1 : mget k1 r1 = None).
    { apply mget_None. intro Hi. apply Hk1 in Hi. rewrite scmp_refl in Hi. discriminate. }
    assert (N2 : mget k1 r2 = None).
    { apply mget_None. intro Hi. apply Hk2 in Hi. rewrite scmp_refl in Hi. discriminate. }
    congruence.
Qed.

Lemma mset_noop k v m : msorted m -> mget k m = Some v -> mset k v m = m.
Proof.
  intros Hs Hg. apply msorted_ext; [apply msorted_mset; exact Hs|exact Hs|].
  intro x. rewrite mget_mset. destruct (String.eqb_spec x k) as [->|]; congruence.
Qed.

Lemma mset_comm k1 k2 v1 v2 m :
  msorted m -> k1 <> k2 -> mset k1 v1 (mset k2 v2 m) = mset k2 v2 (mset k1 v1 m).
Proof.
  intros Hs Hn. apply msorted_ext; auto using msorted_mset.
  intro x. rewrite !mget_mset.
  destruct (String.eqb_spec x k1) as [E1|]; destruct (String.eqb_spec x k2) as [E2|]; congruence.
Qed.

Lemma mset_twice k v1 v2 m : msorted m -> mset k v1 (mset k v2 m) = mset k v1 m.
Proof.
  intros Hs. apply msorted_ext; auto using msorted_mset.
  intro x. rewrite !mget_mset. destruct (String.eqb_spec x k); reflexivity.
Qed.

Lemma msorted_filter (f : string * A -> bool) m : msorted m -> msorted (filter f m).
Proof.
  induction m as [|[k v] r IH]; simpl; intros H; [exact I|].
  destruct H as [Hk Hr]. destruct (f (k, v)); simpl; [|auto].
  split; [|auto]. intros x Hx. apply Hk.
  apply in_map_iff in Hx. destruct Hx as [[a b] [E Hi]]. simpl in E. subst.
  apply filter_In in Hi. destruct Hi as [Hi _]. apply (in_map fst) in Hi. exact Hi.
Qed.
End Maps.

Lemma mkeys_map {A B} (f : string * A -> B) (m : smap A) :
  mkeys (map (fun kv => (fst kv, f kv)) m) = mkeys m.
Proof. unfold mkeys. rewrite map_map. reflexivity. Qed.

Lemma msorted_keys_eq {A B} (m1 : smap A) (m2 : smap B) :
  mkeys m1 = mkeys m2 -> msorted m1 -> msorted m2.
Proof.
  revert m2. induction m1 as [|[k v] r IH]; intros [|[k2 v2] r2] He Hs; simpl in *; try discriminate; [exact I|].
  inversion He; subst. destruct Hs as [Hk Hr]. split; [|apply IH; auto].
  intros x Hx. apply Hk. unfold mkeys in *. congruence.
Qed.

Lemma mget_map {A B} (f : A -> B) (m : smap A) k :
  mget k (map (fun kv => (fst kv, f (snd kv))) m) = option_map f (mget k m).
Proof.
  induction m as [|[k' v'] r IH]; simpl; [reflexivity|].
  destruct (String.eqb k k'); [reflexivity|exact IH].
Qed.

Lemma mof_sorted_aux {A} (l : list (string * A)) m :
  msorted m -> msorted (fold_left (fun m kv => mset (fst kv) (snd kv) m) l m).
Proof.
  revert m. induction l as [|[k v] r IH]; simpl; intros m Hm; [exact Hm|].
  apply IH. apply msorted_mset. exact Hm.
Qed.
Lemma mof_sorted {A} (l : list (string * A)) : msorted (mof l).
Proof. apply mof_sorted_aux. exact I. Qed.

Lemma mof_in {A} (l : list (string * A)) k v : NoDup (map fst l) -> (In (k, v) (mof l) <-> In (k, v) l).
Proof.
  intro H.
  assert (G : forall (l : list (string * A)) m, NoDup (map fst l) -> msorted m -> (forall x, In x (map fst l) -> ~ In x (mkeys m)) ->
    forall k v, In (k, v) (fold_left (fun m kv => mset (fst kv) (snd kv) m) l m) <-> In (k, v) l \/ In (k, v) m).
  { clear. induction l as [|[k0 v0] l IH]; intros m Hn Hm Hd k v; cbn [fold_left].
    - cbn. tauto.
    - cbn [map fst] in *. inversion Hn as [|? ? Hk Hl]; subst. cbn [fst snd].
      rewrite IH.
      + assert (E : In (k, v) (mset k0 v0 m) <-> (k0, v0) = (k, v) \/ In (k, v) m).
        { assert (Hs := msorted_mset k0 v0 m Hm). split.
          - intro Hi. apply In_mget in Hi; [|apply msorted_NoDup, Hs]. rewrite mget_mset in Hi.
            destruct (String.eqb_spec k k0); [left; congruence|right; apply mget_In, Hi].
          - intros [Hi|Hi].
            + inversion Hi; subst. apply mget_In, mget_mset_same.
            + apply mget_In. rewrite mget_mset. destruct (String.eqb_spec k k0) as [->|].
              * exfalso. apply (Hd k0); [left; reflexivity|]. apply in_map_iff. exists (k0, v). auto.
              * apply In_mget; [apply msorted_NoDup, Hm|exact Hi]. }
        rewrite E. cbn. tauto.
      + exact Hl.
      + apply msorted_mset, Hm.
      + intros x Hx Hi. apply mkeys_mset in Hi. destruct Hi as [->|Hi]; [contradiction|]. apply (Hd x); [right; exact Hx|exact Hi]. }
  unfold mof. rewrite G; [|exact H|exact I|intros x _ []]. cbn. tauto.
Qed.

Lemma msorted_in_ext {A} (m1 m2 : smap A) : msorted m1 -> msorted m2 ->
  (forall k v, In (k, v) m1 <-> In (k, v) m2) -> m1 = m2.
Proof.
  intros H1 H2 H. apply msorted_ext; [assumption..|]. intro k.
  destruct (mget k m1) as [v|] eqn:E1.
  - apply mget_In, H in E1. symmetry. apply In_mget; [apply msorted_NoDup, H2|exact E1].
  - destruct (mget k m2) as [v|] eqn:E2; [|reflexivity]. apply mget_In, H in E2.
    apply In_mget in E2; [congruence|apply msorted_NoDup, H1].
Qed.

(** ** Induction on nodes (expressions, lambdas and templates are leaves) *)
Definition node_sub (P : node -> Prop) (v : value) : Prop :=
  match v with
  | VList l => Forall P l
  | VMap m => Forall (fun kv => P (snd kv)) m
  | _ => True
  end.

Section NodeInd.
Variable P : node -> Prop.
Hypothesis H : forall v a s t r, node_sub P v -> P (mkNode v a s t r).
Fixpoint node_ind' (n : node) : P n :=
  match n with
  | mkNode v a s t r =>
    H v a s t r
      (match v return node_sub P v with
       | VList l => (fix go (l : list node) : Forall P l :=
                       match l with
                       | [] => Forall_nil P
                       | x :: rr => Forall_cons x (node_ind' x) (go rr)
                       end) l
       | VMap m => (fix go (m : list (string * node)) : Forall (fun kv => P (snd kv)) m :=
                       match m with
                       | [] => Forall_nil _
                       | x :: rr => Forall_cons (P := fun kv => P (snd kv)) x
                                      (match x return P (snd x) with (_, y) => node_ind' y end) (go rr)
                       end) m
       | _ => I
       end)
  end.
End NodeInd.

Lemma node_eta n : n = mkNode (val n) (ann n) (src n) (tmpl n) (resolver n).
Proof. destruct n; reflexivity. Qed.

(** ** wrap64 *)
Lemma wrap64_range z : in64 (wrap64 z).
Proof.
  unfold in64, wrap64, min64, max64, two63, two64.
  pose proof (Z.mod_pos_bound (z + 9223372036854775808) 18446744073709551616). lia.
Qed.
Lemma wrap64_id z : in64 z -> wrap64 z = z.
Proof.
  unfold in64, wrap64, min64, max64, two63, two64. intros H.
  rewrite Z.mod_small; lia.
Qed.
Lemma wrap64_mod z : (wrap64 z - z) mod two64 = 0.
Proof.
  unfold wrap64, two64, two63.
  replace ((z + 9223372036854775808) mod 18446744073709551616 - 9223372036854775808 - z)
    with ((- ((z + 9223372036854775808) / 18446744073709551616)) * 18446744073709551616).
  - apply Z.mod_mul. lia.
  - pose proof (Z.div_mod (z + 9223372036854775808) 18446744073709551616). lia.
Qed.
Lemma wrap64_eq a b : (a - b) mod two64 = 0 -> wrap64 a = wrap64 b.
Proof.
  intro H. unfold wrap64. f_equal.
  unfold two64 in *. apply Z.mod_divide in H; [|lia]. destruct H as [k Hk].
  replace (a + two63) with (b + two63 + k * 18446744073709551616) by lia.
  apply Z.mod_add. lia.
Qed.
Lemma in64b_spec z : in64b z = true <-> in64 z.
Proof. unfold in64b, in64. rewrite andb_true_iff, !Z.leb_le. tauto. Qed.
