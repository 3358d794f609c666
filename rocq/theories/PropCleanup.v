(** C05 (cleanup of temporary and local nodes) and C06 (state extraction). *)
From Coq Require Import Lia.
From Verif Require Import Core CoreFacts Str Interp Cleanup DeepEq Equiv EquivFacts.

(* ------------------------------------------------------------------ *)
(** * Specification: the listing of a document *)

(** What is seen at one node: a leaf value, or the kind of container. *)
Inductive shape := SLeaf (v : value) | SSeq | SMapping.
Definition shapeof (v : value) : shape :=
  match v with VList _ => SSeq | VMap _ => SMapping | _ => SLeaf v end.
(** One row: labels from the root ("key" for a map entry, "-" for a list item),
    the shape and all node data besides the value. *)
Record row := mkRow { r_dead : bool; r_path : list string; r_shape : shape; r_data : annotation * string * option value * option binding }.

(** All nodes of a document from top to bottom. A row is dead iff the node or
    one of the nodes above it, except the root, satisfies [marked]. *)
Fixpoint listing (marked : node -> bool) (dead : bool) (path : list string) (n : node) : list row :=
  match n with
  | mkNode v a s t r =>
      mkRow dead path (shapeof v) (a, s, t, r) ::
      match v with
      | VList l => flat_map (fun e => listing marked (dead || marked e) (path ++ ["-"]) e) l
      | VMap m => flat_map (fun p => match p with (k, e) => listing marked (dead || marked e) (path ++ ["key " +++ k]%string) e end) m
      | _ => []
      end
  end.

Definition live (r : row) : bool := negb (r_dead r).

(** temporary or local *)
Definition temporary (n : node) : bool := fTemporary (nflags n) || fLocal (nflags n).
Definition local (n : node) : bool := fLocal (nflags n).

(* ------------------------------------------------------------------ *)
(** * Proofs *)

Lemma listing_dead P n : forall path, filter live (listing P true path n) = [].
Proof.
  induction n as [v a s t r IH] using node_indT. intro path. cbn [listing filter live r_dead negb].
  destruct v; try reflexivity; cbn [node_subT] in IH.
  - induction IH as [|x l Hx _ IHl]; [reflexivity|]. cbn [flat_map]. rewrite filter_app.
    cbn [orb]. rewrite Hx. exact IHl.
  - induction IH as [|[k x] l Hx _ IHl]; [reflexivity|]. cbn [flat_map]. rewrite filter_app.
    cbn [orb]. cbn [snd] in Hx. rewrite Hx. exact IHl.
Qed.

(** marks look at the annotation only *)
Definition annmark (P : node -> bool) : Prop := forall a b, ann a = ann b -> P a = P b.

Lemma cleanup_ann St test q n : ann (cleanup St test q n) = ann n.
Proof. destruct n; reflexivity. Qed.

Lemma cleanup_listing P n : annmark P -> forall path,
  listing P false path (cleanup unit (fun _ n => (negb (P n), tt)) tt n) = filter live (listing P false path n).
Proof.
  intro HP. induction n as [v a s t r IH] using node_indT. intro path.
  cbn [cleanup listing]. cbn [filter live r_dead negb].
  destruct v; try reflexivity; cbn [node_subT shapeof] in *; f_equal.
  - induction IH as [|x l Hx _ IHl]; [reflexivity|]. cbn [flat_map]. rewrite filter_app, <- IHl.
    cbn [orb]. destruct (P x) eqn:E; cbn [negb].
    + rewrite listing_dead. reflexivity.
    + cbn [flat_map]. f_equal. rewrite <- Hx.
      rewrite (HP (cleanup unit _ tt x) x (cleanup_ann _ _ _ _)), E. reflexivity.
  - induction IH as [|[k x] l Hx _ IHl]; [reflexivity|]. cbn [flat_map]. rewrite filter_app, <- IHl.
    cbn [orb snd] in *. destruct (P x) eqn:E; cbn [negb].
    + rewrite listing_dead. reflexivity.
    + cbn [flat_map]. f_equal. rewrite <- Hx.
      rewrite (HP (cleanup unit _ tt x) x (cleanup_ann _ _ _ _)), E. reflexivity.
Qed.

Lemma temporary_ann : annmark temporary.
Proof. intros a b H. unfold temporary, nflags. rewrite H. reflexivity. Qed.
Lemma local_ann : annmark local.
Proof. intros a b H. unfold local, nflags. rewrite H. reflexivity. Qed.

(** C05: the final document consists exactly of the nodes that are neither
    temporary/local nor below such a node, in the same order, with the same
    keys, leaf values, and node data. *)
Theorem C05_final : forall n,
  listing temporary false [] (dropTemporary n) = filter live (listing temporary false [] n).
Proof. intro n. apply (cleanup_listing temporary n temporary_ann []). Qed.

(** C05 for prepared stubs: only local nodes are removed *)
Theorem C05_stub : forall n,
  listing local false [] (dropLocal n) = filter live (listing local false [] n).
Proof. intro n. apply (cleanup_listing local n local_ann []). Qed.

(** C05: the root stays, whatever its marks *)
Theorem C05_root : forall n, ann (dropTemporary n) = ann n /\ shapeof (val (dropTemporary n)) = shapeof (val n).
Proof. intros [v a s t r]. split; [reflexivity|]. destruct v; reflexivity. Qed.

Lemma cleanup_id P n : annmark P -> Forall (fun r => live r = true) (listing P false [] n) ->
  cleanup unit (fun _ n => (negb (P n), tt)) tt n = n.
Proof.
  intros HP. assert (G : forall path, Forall (fun r => live r = true) (listing P false path n) ->
    cleanup unit (fun _ n => (negb (P n), tt)) tt n = n); [|apply G].
  induction n as [v a s t r IH] using node_indT. intros path H.
  cbn [cleanup]. cbn [listing] in H. inversion H as [|? ? _ H']; subst. clear H. f_equal.
  destruct v; try reflexivity; cbn [node_subT] in IH; f_equal.
  - induction IH as [|x l Hx _ IHl]; [reflexivity|]. cbn [flat_map] in H'. apply Forall_app in H'. destruct H' as [H1 H2].
    cbn [orb] in H1. destruct (P x) eqn:E.
    + destruct x; cbn in H1; inversion H1; discriminate.
    + cbn [negb]. rewrite (Hx _ H1). f_equal. apply IHl, H2.
  - induction IH as [|[k x] l Hx _ IHl]; [reflexivity|]. cbn [flat_map] in H'. apply Forall_app in H'. destruct H' as [H1 H2].
    cbn [orb snd] in *. destruct (P x) eqn:E.
    + destruct x; cbn in H1; inversion H1; discriminate.
    + cbn [negb]. rewrite (Hx _ H1). f_equal. apply IHl, H2.
Qed.

Lemma filter_live_all l : Forall (fun r => live r = true) (filter live l).
Proof. apply Forall_forall. intros x H. apply filter_In in H. apply H. Qed.

(** C05: nothing marked is left below the root *)
Theorem C05_nothing_left : forall n, Forall (fun r => live r = true) (listing temporary false [] (dropTemporary n)).
Proof. intro n. rewrite C05_final. apply filter_live_all. Qed.

(** C05: a document without marked nodes is not changed at all; so a second
    cleanup changes nothing *)
Theorem C05_unmarked : forall n, Forall (fun r => live r = true) (listing temporary false [] n) -> dropTemporary n = n.
Proof. intro n. apply (cleanup_id temporary n temporary_ann). Qed.
Theorem C05_idempotent : forall n, dropTemporary (dropTemporary n) = dropTemporary n.
Proof. intro n. apply C05_unmarked, C05_nothing_left. Qed.
Theorem C05_stub_idempotent : forall n, dropLocal (dropLocal n) = dropLocal n.
Proof.
  intro n. apply (cleanup_id local _ local_ann). rewrite C05_stub. apply filter_live_all.
Qed.
(** C05: removing locals first (as for stubs) does not matter for the final removal *)
Theorem C05_stages : forall n, dropTemporary (dropLocal n) = dropTemporary n.
Proof.
  intro n. unfold dropTemporary, dropLocal.
  induction n as [v a s t r IH] using node_indT. cbn [cleanup]. f_equal.
  destruct v; try reflexivity; cbn [node_subT] in IH; f_equal.
  - induction IH as [|x l Hx _ IHl]; [reflexivity|].
    destruct (fLocal (nflags x)) eqn:E.
    + replace (discardLocal tt x) with (false, tt) by (unfold discardLocal; rewrite E; reflexivity).
      replace (discardTemporary tt x) with (false, tt) by (unfold discardTemporary; rewrite E, orb_true_r; reflexivity).
      exact IHl.
    + replace (discardLocal tt x) with (true, tt) by (unfold discardLocal; rewrite E; reflexivity).
      assert (Ex : discardTemporary tt (cleanup unit discardLocal tt x) = discardTemporary tt x)
        by (unfold discardTemporary, nflags; rewrite cleanup_ann; reflexivity).
      cbv iota beta. rewrite Ex. destruct (discardTemporary tt x) as [[] []]; [|exact IHl].
      rewrite Hx, IHl. reflexivity.
  - induction IH as [|[k x] l Hx _ IHl]; [reflexivity|]. cbn [snd] in Hx.
    destruct (fLocal (nflags x)) eqn:E.
    + replace (discardLocal tt x) with (false, tt) by (unfold discardLocal; rewrite E; reflexivity).
      replace (discardTemporary tt x) with (false, tt) by (unfold discardTemporary; rewrite E, orb_true_r; reflexivity).
      exact IHl.
    + replace (discardLocal tt x) with (true, tt) by (unfold discardLocal; rewrite E; reflexivity).
      assert (Ex : discardTemporary tt (cleanup unit discardLocal tt x) = discardTemporary tt x)
        by (unfold discardTemporary, nflags; rewrite cleanup_ann; reflexivity).
      cbv iota beta. rewrite Ex. destruct (discardTemporary tt x) as [[] []]; [|exact IHl].
      rewrite Hx, IHl. reflexivity.
Qed.

(* ------------------------------------------------------------------ *)
(** * C06 *)

Lemma keepall_id n : cleanup bool discardNonState true n = n.
Proof.
  induction n as [v a s t r IH] using node_indT. cbn [cleanup]. f_equal.
  destruct v; try reflexivity; cbn [node_subT] in IH; f_equal.
  - induction IH as [|x l Hx _ IHl]; [reflexivity|]. cbn. rewrite Hx. f_equal. exact IHl.
  - induction IH as [|[k x] l Hx _ IHl]; [reflexivity|]. cbn in *. rewrite Hx. f_equal. exact IHl.
Qed.

(** C06: the state of a map document consists exactly of the entries marked as
    state, each with its complete unchanged content *)
Theorem C06_map : forall n m, val n = VMap m ->
  exists m', val (determineState n) = VMap m' /\ ann (determineState n) = ann n /\
    (forall k c, In (k, c) m' <-> In (k, c) m /\ fState (nflags c) = true) /\ (msorted m -> msorted m').
Proof.
  intros [v a s t r] m E. cbn [val] in E. subst v. exists (filter (fun p => fState (nflags (snd p))) m).
  split; [|split; [reflexivity|split]].
  - cbn [determineState cleanup]. unfold determineState. cbn [cleanup val]. f_equal.
    induction m as [|[k x] m IH]; [reflexivity|]. cbn [filter snd]. unfold discardNonState at 1.
    destruct (fState (nflags x)); [rewrite keepall_id; f_equal|]; exact IH.
  - intros k c. rewrite filter_In. reflexivity.
  - apply msorted_filter.
Qed.

(** C06: lists: exactly the items marked as state, in order *)
Theorem C06_list : forall n l, val n = VList l ->
  val (determineState n) = VList (filter (fun c => fState (nflags c)) l).
Proof.
  intros [v a s t r] l E. cbn [val] in E. subst v. unfold determineState. cbn [cleanup val]. f_equal.
  induction l as [|x l IH]; [reflexivity|]. cbn [filter]. unfold discardNonState at 1.
  destruct (fState (nflags x)); [rewrite keepall_id; f_equal|]; exact IH.
Qed.

(** C06: re-extracting the state of a state document changes nothing *)
Theorem C06_idempotent : forall n, determineState (determineState n) = determineState n.
Proof.
  intros [v a s t r]. unfold determineState. cbn [cleanup]. f_equal.
  destruct v; try reflexivity; f_equal.
  - induction l as [|x l IH]; [reflexivity|].
    assert (D : discardNonState false x = if fState (nflags x) then (true, true) else (false, false)) by reflexivity.
    rewrite D. destruct (fState (nflags x)); [|exact IH]. rewrite keepall_id, D, keepall_id. f_equal. exact IH.
  - induction m as [|[k x] l IH]; [reflexivity|].
    assert (D : discardNonState false x = if fState (nflags x) then (true, true) else (false, false)) by reflexivity.
    rewrite D. destruct (fState (nflags x)); [|exact IH]. rewrite keepall_id, D, keepall_id. f_equal. exact IH.
Qed.

(** C06, what does not hold: a state node below an entry that is not marked as
    state is not part of the state document *)
Definition stateNode : node := addFlags (newNode (VStr "secret") "") FLAG_STATE.
Definition nestedState : node := newNode (VMap [("outer", newNode (VMap [("inner", stateNode)]) "")]) "".
Theorem C06_nested_refuted :
  exists n p c, In (mkRow false p (SLeaf (val c)) (ann c, src c, tmpl c, resolver c)) (listing (fun _ => false) false [] n) /\
    fState (nflags c) = true /\
    ~ exists q, In (mkRow false q (SLeaf (val c)) (ann c, src c, tmpl c, resolver c)) (listing (fun _ => false) false [] (determineState n)).
Proof.
  exists nestedState, ["key outer"; "key inner"], stateNode. split; [|split; [reflexivity|]].
  - cbn. right. right. left. reflexivity.
  - intros [q [H|[]]]. discriminate H.
Qed.

(** non-vacuity *)
Definition tmpNode : node := addFlags (newNode (VStr "t") "") FLAG_TEMPORARY.
Definition ex_clean : node :=
  newNode (VMap [("a", newNode (VList [newNode (VInt 1) ""; tmpNode; newNode (VInt 2) ""]) "");
                 ("b", addFlags (newNode (VMap [("c", newNode (VInt 3) "")]) "") FLAG_LOCAL);
                 ("s", stateNode)]) "".
Example ex_clean1 : dropTemporary ex_clean =
  newNode (VMap [("a", newNode (VList [newNode (VInt 1) ""; newNode (VInt 2) ""]) ""); ("s", stateNode)]) "".
Proof. reflexivity. Qed.
Example ex_clean2 : length (listing temporary false [] ex_clean) = 8%nat /\
  length (filter live (listing temporary false [] ex_clean)) = 5%nat.
Proof. split; reflexivity. Qed.
Example ex_state : determineState ex_clean = newNode (VMap [("s", stateNode)]) "".
Proof. reflexivity. Qed.

Print Assumptions C05_final.
Print Assumptions C05_idempotent.
Print Assumptions C05_stages.
Print Assumptions C06_map.
Print Assumptions C06_idempotent.
Print Assumptions C06_nested_refuted.
