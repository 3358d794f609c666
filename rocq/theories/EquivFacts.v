(** Node equivalence (C07). *)
From Coq Require Import Lia.
From Verif Require Import Core CoreFacts DeepEq DeepEqFacts Equiv.

(** induction over nodes that also descends into template values *)
Definition node_subT (P : node -> Prop) (v : value) : Prop :=
  match v with
  | VList l => Forall P l
  | VMap m => Forall (fun kv => P (snd kv)) m
  | VTemplate _ a b _ => P a /\ P b
  | _ => True
  end.
Section Ind.
Variable P : node -> Prop.
Hypothesis H : forall v a s t r, node_subT P v -> P (mkNode v a s t r).
Fixpoint node_indT (n : node) : P n :=
  match n with
  | mkNode v a s t r =>
    H v a s t r
      (match v as v' return node_subT P v' with
       | VList l => (fix go (l : list node) : Forall P l :=
                       match l with
                       | [] => Forall_nil P
                       | x :: r => Forall_cons x (node_indT x) (go r)
                       end) l
       | VMap m => (fix go (m : list (string * node)) : Forall (fun kv => P (snd kv)) m :=
                      match m with
                      | [] => Forall_nil _
                      | (k, x) :: r => Forall_cons (k, x) (node_indT x) (go r)
                      end) m
       | VTemplate _ a b _ => conj (node_indT a) (node_indT b)
       | _ => I
       end)
  end.
End Ind.

(** well-formed: every map has unique (sorted) keys *)
Fixpoint wfN (n : node) : Prop :=
  match n with
  | mkNode v _ _ _ _ =>
    match v with
    | VList l => (fix go (l : list node) : Prop := match l with [] => True | x :: r => wfN x /\ go r end) l
    | VMap m => msorted m /\
        (fix go (m : list (string * node)) : Prop :=
           match m with [] => True | (_, x) :: r => wfN x /\ go r end) m
    | VTemplate _ a b _ => wfN a /\ wfN b
    | _ => True
    end
  end.
Definition wfV (v : value) : Prop := wfN (mkNode v emptyAnn "" None None).

Lemma wf_list l : wfV (VList l) <-> Forall wfN l.
Proof.
  unfold wfV. cbn. induction l as [|x r IH]; [split; [constructor|trivial]|].
  rewrite IH. split; [intros [H1 H2]; constructor; auto|intro H; inversion H; auto].
Qed.
Lemma wf_map m : wfV (VMap m) <-> msorted m /\ Forall (fun kv => wfN (snd kv)) m.
Proof.
  unfold wfV. cbn. apply and_iff_compat_l.
  induction m as [|[k x] r IH]; [split; [constructor|trivial]|].
  rewrite IH. split; [intros [H1 H2]; constructor; auto|intro H; inversion H; auto].
Qed.
Lemma wfN_val n : wfN n <-> wfV (val n).
Proof. destruct n as [v a s t r]. unfold wfV. cbn [val]. destruct v; reflexivity. Qed.

Lemma equivN_val a b : equivN a b = equivV (val a) (val b).
Proof. destruct a, b. reflexivity. Qed.

Lemma equiv_list l l' : equivV (VList l) (VList l') = true <-> Forall2 (fun a b => equivN a b = true) l l'.
Proof.
  cbn [equivV]. revert l'. induction l as [|x r IH]; intros [|y s].
  - split; [constructor|reflexivity].
  - split; [discriminate|intro H; inversion H].
  - split; [discriminate|intro H; inversion H].
  - rewrite andb_true_iff, IH. split; [intros [H1 H2]; constructor; auto|intro H; inversion H; auto].
Qed.

Lemma equiv_map_raw m m' :
  equivV (VMap m) (VMap m') = true <->
  length m = length m' /\ forall k n, In (k, n) m -> exists n', mget k m' = Some n' /\ equivN n n' = true.
Proof.
  cbn [equivV]. rewrite andb_true_iff, Nat.eqb_eq. apply and_iff_compat_l.
  induction m as [|[k n] r IH].
  - split; [intros _ k n []|reflexivity].
  - rewrite andb_true_iff, IH. split.
    + intros [H1 H2] k' n' [E|Hin]; [|auto]. inversion E; subst.
      destruct (mget k' m') as [x|]; [eauto|discriminate].
    + intro Hall. split.
      * destruct (Hall k n (or_introl eq_refl)) as [x [E Hx]]. rewrite E. exact Hx.
      * intros k' n' Hin. apply Hall. right. exact Hin.
Qed.

(** same keys, equivalent values *)
Definition same_entries (R : node -> node -> Prop) (m m' : smap node) : Prop :=
  forall k, match mget k m, mget k m' with
            | Some a, Some b => R a b
            | None, None => True
            | _, _ => False
            end.

Lemma keys_incl_length (m m' : smap node) :
  msorted m -> msorted m' -> length m = length m' ->
  (forall k, In k (mkeys m) -> In k (mkeys m')) -> forall k, In k (mkeys m') -> In k (mkeys m).
Proof.
  intros H1 H2 Hl Hi. apply NoDup_length_incl.
  - apply msorted_NoDup, H1.
  - unfold mkeys. rewrite !map_length. lia.
  - exact Hi.
Qed.

Lemma equiv_map m m' : msorted m -> msorted m' ->
  (equivV (VMap m) (VMap m') = true <-> same_entries (fun a b => equivN a b = true) m m').
Proof.
  intros Hm Hm'. rewrite equiv_map_raw. unfold same_entries. split.
  - intros [Hl Hall] k.
    assert (Hi : forall k, In k (mkeys m) -> In k (mkeys m')).
    { intros k0 Hk. destruct (key_mget k0 m Hk) as [n E]. apply mget_In in E.
      destruct (Hall _ _ E) as [n' [E' _]]. apply mget_Some_key in E'. exact E'. }
    destruct (mget k m) as [a|] eqn:E1.
    + apply mget_In in E1. destruct (Hall _ _ E1) as [n' [E' Hx]]. rewrite E'. exact Hx.
    + destruct (mget k m') as [b|] eqn:E2; [|exact I].
      apply mget_Some_key in E2. apply (keys_incl_length m m' Hm Hm' Hl Hi) in E2.
      apply mget_None in E1. contradiction.
  - intro Hall. split.
    + assert (Hk1 : incl (mkeys m) (mkeys m')).
      { intros k Hk. destruct (key_mget k m Hk) as [n E]. specialize (Hall k). rewrite E in Hall.
        destruct (mget k m') eqn:E'; [apply mget_Some_key in E'; exact E'|contradiction]. }
      assert (Hk2 : incl (mkeys m') (mkeys m)).
      { intros k Hk. destruct (key_mget k m' Hk) as [n E]. specialize (Hall k). rewrite E in Hall.
        destruct (mget k m) eqn:E'; [apply mget_Some_key in E'; exact E'|contradiction]. }
      apply NoDup_incl_length in Hk1; [|apply msorted_NoDup, Hm].
      apply NoDup_incl_length in Hk2; [|apply msorted_NoDup, Hm'].
      unfold mkeys in *. rewrite !map_length in *. lia.
    + intros k n Hin. apply In_mget in Hin; [|apply msorted_NoDup, Hm].
      specialize (Hall k). rewrite Hin in Hall. destruct (mget k m'); [eauto|contradiction].
Qed.

(** values without NaN *)
Fixpoint nanfreeN (n : node) : Prop :=
  match n with
  | mkNode v _ _ _ _ =>
    match v with
    | VList l => (fix go (l : list node) : Prop := match l with [] => True | x :: r => nanfreeN x /\ go r end) l
    | VMap m => (fix go (m : list (string * node)) : Prop :=
           match m with [] => True | (_, x) :: r => nanfreeN x /\ go r end) m
    | VTemplate _ _ b _ => nanfreeN b
    | _ => nonan (encV v) = true
    end
  end.
Lemma nanfree_list l a s t r : nanfreeN (mkNode (VList l) a s t r) <-> Forall nanfreeN l.
Proof.
  cbn. induction l as [|x l IH]; [split; [constructor|trivial]|].
  rewrite IH. split; [intros [H1 H2]; constructor; auto|intro H; inversion H; auto].
Qed.
Lemma nanfree_map m a s t r : nanfreeN (mkNode (VMap m) a s t r) <-> Forall (fun kv => nanfreeN (snd kv)) m.
Proof.
  cbn. induction m as [|[k x] l IH]; [split; [constructor|trivial]|].
  rewrite IH. split; [intros [H1 H2]; constructor; auto|intro H; inversion H; auto].
Qed.

Lemma equiv_refl n : wfN n -> nanfreeN n -> equivN n n = true.
Proof.
  induction n as [v a s t r IH] using node_indT. intros Hw Hn.
  apply wfN_val in Hw. cbn [val] in Hw. rewrite equivN_val. cbn [val].
  destruct v; try (cbn [equivV]; apply tree_eqb_refl; exact Hn).
  - apply equiv_list. apply wf_list in Hw. apply nanfree_list in Hn. cbn [node_subT] in IH.
    induction IH as [|x l Hx _ IHl]; constructor; inversion Hw; inversion Hn; subst; auto.
  - apply wf_map in Hw. destruct Hw as [Hs Hw]. apply nanfree_map in Hn. cbn [node_subT] in IH.
    apply equiv_map; auto. intro k. destruct (mget k m) as [x|] eqn:E; [|exact I].
    apply mget_In in E. rewrite Forall_forall in *.
    apply (IH _ E); [apply (Hw _ E)|apply (Hn _ E)].
  - cbn [equivV]. unfold deepEqE. apply tree_eqb_refl.
    change (nonan (encV (VLambda ps varargs body static resolver)) = true) in Hn.
    cbn [encV] in Hn. rewrite nonan_TN in Hn. cbn [forallb] in Hn.
    rewrite !andb_true_iff in Hn. destruct Hn as [H1 [H2 [H3 _]]].
    cbn [encE]. rewrite nonan_TN. cbn [forallb]. rewrite !andb_true_iff. auto.
  - cbn [equivV]. cbn [node_subT] in IH. destruct IH as [_ IH]. apply IH; [|exact Hn].
    unfold wfV in Hw. cbn in Hw. tauto.
Qed.

Lemma equiv_sym a b : wfN a -> wfN b -> equivN a b = true -> equivN b a = true.
Proof.
  revert b. induction a as [v an s t r IH] using node_indT. intros [w an' s' t' r'] Ha Hb.
  apply wfN_val in Ha. apply wfN_val in Hb. rewrite !equivN_val. cbn [val] in *.
  destruct v, w; try (intro X; cbn [equivV] in *; discriminate X);
    try (cbn [equivV]; apply tree_eqb_sym).
  - rewrite !equiv_list. apply wf_list in Ha. apply wf_list in Hb. cbn [node_subT] in IH.
    intro H. induction H as [|x y l l' Hxy _ IHl]; constructor; inversion IH; inversion Ha; inversion Hb; subst; auto.
  - apply wf_map in Ha. apply wf_map in Hb. destruct Ha as [Hs Ha], Hb as [Hs' Hb].
    rewrite !equiv_map by assumption. intros H k. specialize (H k). cbn [node_subT] in IH.
    destruct (mget k m) as [x|] eqn:E1, (mget k m0) as [y|] eqn:E2; auto.
    apply mget_In in E1. apply mget_In in E2. rewrite Forall_forall in *.
    apply (IH _ E1); [apply (Ha _ E1)|apply (Hb _ E2)|exact H].
  - cbn [equivV]. cbn [node_subT] in IH. destruct IH as [_ IH]. unfold wfV in Ha, Hb. cbn in Ha, Hb.
    apply IH; tauto.
Qed.

Lemma equiv_trans a b c : wfN a -> wfN b -> wfN c ->
  equivN a b = true -> equivN b c = true -> equivN a c = true.
Proof.
  revert b c. induction a as [v an s t r IH] using node_indT.
  intros [w an' s' t' r'] [u an'' s'' t'' r''] Ha Hb Hc.
  apply wfN_val in Ha. apply wfN_val in Hb. apply wfN_val in Hc. rewrite !equivN_val. cbn [val] in *.
  destruct v, w; try (intros X; cbn [equivV] in X; discriminate X); destruct u;
    try (intros X Y; cbn [equivV] in Y; discriminate Y);
    try (cbn [equivV]; apply tree_eqb_trans).
  - rewrite !equiv_list. apply wf_list in Ha. apply wf_list in Hb. apply wf_list in Hc. cbn [node_subT] in IH.
    intro H. revert l1 Hc. induction H as [|x y l l' Hxy _ IHl]; intros l1 Hc H'; inversion H'; subst; constructor;
      inversion IH; inversion Ha; inversion Hb; inversion Hc; subst; eauto.
  - apply wf_map in Ha. apply wf_map in Hb. apply wf_map in Hc. destruct Ha as [Hs Ha], Hb as [Hs' Hb], Hc as [Hs'' Hc].
    rewrite !equiv_map by assumption. intros H H' k. specialize (H k). specialize (H' k). cbn [node_subT] in IH.
    destruct (mget k m) as [x|] eqn:E1, (mget k m0) as [y|] eqn:E2, (mget k m1) as [z|] eqn:E3; auto; try contradiction.
    apply mget_In in E1. apply mget_In in E2. apply mget_In in E3. rewrite Forall_forall in *.
    apply (IH _ E1 y z); [apply (Ha _ E1)|apply (Hb _ E2)|apply (Hc _ E3)|exact H|exact H'].
  - cbn [equivV]. cbn [node_subT] in IH. destruct IH as [_ IH]. unfold wfV in Ha, Hb, Hc. cbn in Ha, Hb, Hc.
    apply IH; tauto.
Qed.
