(** C35: the for control.  C36: the selection done by if, switch, type and merge. *)
From Coq Require Import Lia Permutation.
From Verif Require Import Core Str Interp Find Cleanup Unresolved DeepEq Equiv Env Flow Eval Control.
From Verif Require Import CoreFacts StrFacts.
Import ListNotations.

(** ** Specification: the cartesian product, the last range varies fastest *)
Fixpoint product {A} (ranges : list (list A)) : list (list A) :=
  match ranges with
  | [] => [[]]
  | r :: rest => flat_map (fun x => map (cons x) (product rest)) r
  end.

Lemma product_length : forall {A} (rs : list (list A)),
  length (product rs) = fold_right (fun r n => length r * n)%nat 1%nat rs.
Proof.
  induction rs as [|r rs IH]; [reflexivity|]. cbn [product fold_right]. rewrite <- IH.
  induction r as [|x r IHr]; [reflexivity|]. cbn [flat_map]. rewrite app_length, map_length, IHr. reflexivity.
Qed.
Lemma product_In : forall {A} (rs : list (list A)) p,
  In p (product rs) <-> Forall2 (fun x r => In x r) p rs.
Proof.
  induction rs as [|r rs IH]; intro p; cbn [product].
  - split; [intros [<- | []]; constructor|]. inversion 1. now left.
  - rewrite in_flat_map. split.
    + intros [x [I J]]. apply in_map_iff in J. destruct J as [q [<- Q]]. constructor; [exact I|]. now apply IH.
    + inversion 1 as [|x y q q2 I F]; subst. exists x. split; [exact I|]. apply in_map_iff. exists q. split; [reflexivity|]. now apply IH.
Qed.
Lemma product_snoc : forall {A} (rs : list (list A)) r,
  product (rs ++ [r]) = flat_map (fun p => map (fun x => p ++ [x]) r) (product rs).
Proof.
  induction rs as [|r0 rs IH]; intro r; cbn [product app flat_map].
  - rewrite app_nil_r. cbn [map]. induction r as [|x r IHr]; [reflexivity|]. cbn [flat_map map app] in *. now f_equal.
  - rewrite IH. induction r0 as [|x r0 IHr0]; [reflexivity|]. cbn [flat_map]. rewrite IHr0, flat_map_app. f_equal.
    clear. induction (product rs) as [|p l IHl]; [reflexivity|]. cbn [map flat_map].
    rewrite map_app, IHl. f_equal. rewrite map_map. reflexivity.
Qed.

Lemma Forall2_len : forall {A B} (R : A -> B -> Prop) l r, Forall2 R l r -> length l = length r.
Proof. induction 1; cbn; congruence. Qed.

(** ** The odometer *)
Fixpoint prodF {A} (rs : list (list A)) : list (list A) :=
  match rs with
  | [] => [[]]
  | r :: rest => flat_map (fun p => map (fun x => x :: p) r) (prodF rest)
  end.
Lemma prodF_product : forall {A} (rs : list (list A)), map (@rev A) (prodF rs) = product (rev rs).
Proof.
  induction rs as [|r rs IH]; [reflexivity|]. cbn [prodF rev]. rewrite product_snoc, <- IH.
  clear. induction (prodF rs) as [|p l IHl]; [reflexivity|]. cbn [flat_map map]. rewrite map_app, IHl. f_equal.
  rewrite map_map. reflexivity.
Qed.
Lemma prodF_length : forall {A} (rs : list (list A)), length (prodF rs) = fold_right (fun r n => length r * n)%nat 1%nat rs.
Proof.
  induction rs as [|r rs IH]; [reflexivity|]. cbn [prodF fold_right]. rewrite <- IH.
  generalize (prodF rs). clear. intro l. induction l as [|p l IHl]; [cbn; lia|]. cbn [flat_map length]. rewrite app_length, map_length, IHl. lia.
Qed.
Lemma prodF_map : forall {A B} (f : A -> B) (rs : list (list A)), prodF (map (map f) rs) = map (map f) (prodF rs).
Proof.
  induction rs as [|r rs IH]; [reflexivity|]. cbn [prodF map]. rewrite IH.
  generalize (prodF rs). clear. intro l. induction l as [|p l IHl]; [reflexivity|]. cbn [flat_map map]. rewrite map_app, IHl. f_equal.
  now rewrite !map_map.
Qed.

Inductive path (rs : list iteration) : list nat -> list (list nat) -> Prop :=
| P_last : forall c, advance rs c = None -> path rs c [c]
| P_step : forall c c' l, advance rs c = Some c' -> path rs c' l -> path rs c (c :: l).

Definition idx (rs : list iteration) : list (list nat) := prodF (map (fun it => seq 0 (length (it_vals it))) rs).

Lemma path_block : forall it rs cs k a L, length (it_vals it) = (a + S k)%nat ->
  (match advance rs cs with None => L = [] | Some cs' => path (it :: rs) (O :: cs') L end) ->
  path (it :: rs) (a :: cs) (map (fun x => x :: cs) (seq a (S k)) ++ L).
Proof.
  intros it rs cs. induction k; intros a L E H.
  - cbn [seq map app]. destruct (advance rs cs) as [cs'|] eqn:Q.
    + eapply P_step; [|exact H]. cbn [advance]. destruct (Nat.ltb_spec (S a) (length (it_vals it))); [lia|]. now rewrite Q.
    + subst. apply P_last. cbn [advance]. destruct (Nat.ltb_spec (S a) (length (it_vals it))); [lia|]. now rewrite Q.
  - change (seq a (S (S k))) with (a :: seq (S a) (S k)). cbn [map app].
    eapply P_step with (c' := S a :: cs).
    + cbn [advance]. destruct (Nat.ltb_spec (S a) (length (it_vals it))); [reflexivity|lia].
    + apply IHk; [lia|exact H].
Qed.
Lemma path_lift : forall it rs c l, path rs c l -> (0 < length (it_vals it))%nat ->
  path (it :: rs) (O :: c) (flat_map (fun p => map (fun x => x :: p) (seq 0 (length (it_vals it)))) l).
Proof.
  intros it rs c l H L. destruct (length (it_vals it)) as [|k] eqn:E; [lia|].
  induction H as [c H|c c' l H P IH]; cbn [flat_map].
  - apply path_block; [exact E|]. now rewrite H.
  - apply path_block; [exact E|]. now rewrite H.
Qed.
Lemma path_idx : forall rs, Forall (fun it => it_vals it <> []) rs -> path rs (map (fun _ => O) rs) (idx rs).
Proof.
  induction 1 as [|it rs H F IH]; [now apply P_last|]. unfold idx. cbn [map prodF]. apply path_lift; [exact IH|].
  destruct (it_vals it); [congruence|cbn; lia].
Qed.

(** the bindings of the control variables for a combination of (index, element)
    pairs; an outer variable of the same name wins *)
Fixpoint forVars (vars : list iteration) (combo : list (value * node)) : smap node :=
  match vars, combo with
  | it :: vs, (i, n) :: cs => mset (it_index it) (newNode i "for") (mset (it_name it) n (forVars vs cs))
  | _, _ => []
  end.
Fixpoint scopeV (rs : list iteration) (combo : list (value * node)) (inp : smap node) : smap node :=
  match rs, combo with
  | it :: rs, (i, n) :: cs => scopeV rs cs (mset (it_index it) (newNode i "for") (mset (it_name it) n inp))
  | _, _ => inp
  end.
Lemma scopeV_snoc : forall rs combo it i n inp, length combo = length rs ->
  scopeV (rs ++ [it]) (combo ++ [(i, n)]) inp = mset (it_index it) (newNode i "for") (mset (it_name it) n (scopeV rs combo inp)).
Proof.
  induction rs as [|r rs IH]; intros [|[j m] combo] it i n inp L; try discriminate; [reflexivity|].
  cbn [app scopeV]. apply IH. cbn in L. congruence.
Qed.
Lemma scopeV_rev : forall vars combo, length combo = length vars -> scopeV (rev vars) (rev combo) [] = forVars vars combo.
Proof.
  induction vars as [|it vars IH]; intros [|[i n] combo] L; try discriminate; [reflexivity|].
  cbn [rev forVars]. cbn in L. rewrite scopeV_snoc by (rewrite !rev_length; congruence). rewrite IH by congruence. reflexivity.
Qed.
Lemma forScope_idx : forall rs cur combo inp,
  Forall2 (fun it cx => nth_error (it_vals it) (fst cx) = Some (snd cx)) rs (combine cur combo) -> length cur = length combo ->
  forScope rs cur inp = Some (scopeV rs combo inp).
Proof.
  induction rs as [|it rs IH]; intros [|c cur] [|x combo] inp H L; try discriminate; try reflexivity.
  cbn [combine] in H. inversion H as [|? ? ? ? H1 H2]; subst. cbn [fst snd] in H1. cbn [forScope scopeV]. rewrite H1.
    destruct x as [i n]. apply IH; [exact H2|]. cbn in L. congruence.
Qed.
Definition dflt : value * node := (VNil, newNode VNil "").
(** the elements at the positions of the odometer *)
Definition at_ (rs : list iteration) (cur : list nat) : list (value * node) :=
  map (fun ic => nth (snd ic) (it_vals (fst ic)) dflt) (combine rs cur).
Lemma at_prodF : forall rs, map (at_ rs) (idx rs) = prodF (map it_vals rs).
Proof.
  induction rs as [|it rs IH]; [reflexivity|]. unfold idx in *. cbn [map prodF]. rewrite <- IH. clear IH.
  induction (prodF (map (fun it => seq 0 (length (it_vals it))) rs)) as [|p l IHl]; [reflexivity|].
  cbn [flat_map map]. rewrite map_app, IHl. f_equal. rewrite map_map. unfold at_ at 1. cbn [combine map fst snd].
  clear. change (map (fun ic => nth (snd ic) (it_vals (fst ic)) dflt) (combine rs p)) with (at_ rs p).
  assert (G : forall (v : list (value * node)), map (fun x => nth x v dflt) (seq 0 (length v)) = v).
  { clear. induction v as [|a v IH]; [reflexivity|]. cbn [length seq map nth]. rewrite <- seq_shift, map_map. cbn [nth]. now rewrite IH. }
  rewrite <- (G (it_vals it)) at 2. rewrite map_map. apply map_ext. intro x. reflexivity.
Qed.
Lemma idx_range : forall rs cur, In cur (idx rs) ->
  length cur = length rs /\ Forall2 (fun it c => (c < length (it_vals it))%nat) rs cur.
Proof.
  induction rs as [|it rs IH]; intros cur H; unfold idx in H; cbn [map prodF] in H.
  - destruct H as [<- | []]. split; [reflexivity|constructor].
  - apply in_flat_map in H. destruct H as [p [P Q]]. apply in_map_iff in Q. destruct Q as [x [<- X]]. apply in_seq in X.
    destruct (IH p P) as [L F]. split; [cbn; congruence|]. constructor; [lia|exact F].
Qed.
Lemma forScope_at : forall rs cur inp, length cur = length rs -> Forall2 (fun it c => (c < length (it_vals it))%nat) rs cur ->
  forScope rs cur inp = Some (scopeV rs (at_ rs cur) inp).
Proof.
  intros rs cur inp L F. apply forScope_idx; [|unfold at_; rewrite map_length, combine_length; lia].
  clear inp. revert L. induction F as [|it c rs cur H F IH]; intro L; [constructor|].
  cbn [at_ combine map]. constructor; [|apply IH; cbn in L; congruence]. cbn [fst snd]. now apply nth_error_nth'.
Qed.

Section For.
Variable ST : Type.
Variable ctrl : bool.
Variable evaluate : expr -> binding -> bool -> ST -> res ST (value * info * bool).
Notation forLoop := (forLoop ST evaluate).
Notation forBody := (forBody ST evaluate).
Notation flowFor := (flowFor ST ctrl evaluate).

Fixpoint foldBody (mapkey subst : option value) (body : node) (env : binding) (scopes : list binding) (st : fstate) : M ST fstate :=
  match scopes with
  | [] => ret ST st
  | sc :: r => bind ST (forBody mapkey subst body env sc st) (foldBody mapkey subst body env r)
  end.
Lemma forLoop_path : forall mk sb body env rs cur l, path rs cur l ->
  Forall (fun cur => length cur = length rs /\ Forall2 (fun it c => (c < length (it_vals it))%nat) rs cur) l ->
  forall fuel st s, (length l <= fuel)%nat ->
  forLoop fuel mk sb body env rs cur st s =
  foldBody mk sb body env (map (fun cur => withLocalScope (scopeV rs (at_ rs cur) []) env) l) st s.
Proof.
  intros mk sb body env rs cur l P. induction P as [c A|c c' l A P IH]; intros F fuel st s L; inversion F as [|? ? [L1 F1] F2]; subst.
  - destruct fuel; [cbn in L; lia|]. cbn [Control.forLoop map foldBody]. rewrite forScope_at by assumption. now rewrite A.
  - destruct fuel; [cbn in L; lia|]. cbn [Control.forLoop map foldBody]. rewrite forScope_at by assumption. rewrite A.
    unfold bind. destruct (forBody mk sb body env _ st s); try reflexivity. apply IH; [exact F2|]. cbn in L. lia.
Qed.

(** the scopes of all combinations: [vars] lists the outermost variable first *)
Definition scopes (env : binding) (vars : list iteration) : list binding :=
  map (fun combo => withLocalScope (forVars vars combo) env) (product (map it_vals vars)).

Lemma forLoop_fold : forall mk sb body env vars st s, Forall (fun it => it_vals it <> []) vars ->
  forLoop (S (forCount (rev vars))) mk sb body env (rev vars) (map (fun _ => O) (rev vars)) st s =
  foldBody mk sb body env (scopes env vars) st s.
Proof.
  intros mk sb body env vars st s F.
  assert (F' : Forall (fun it => it_vals it <> []) (rev vars)) by now apply Forall_rev.
  rewrite (forLoop_path _ _ _ _ _ _ _ (path_idx _ F')).
  - f_equal. unfold scopes. rewrite <- (map_map (at_ (rev vars)) (fun x => withLocalScope (scopeV (rev vars) x []) env)).
    rewrite at_prodF.
    replace (map it_vals vars) with (rev (map it_vals (rev vars))) by (now rewrite map_rev, rev_involutive).
    rewrite <- prodF_product, map_map. apply map_ext_in. intros combo I. f_equal.
    assert (L : length combo = length vars).
    { assert (J : In (rev combo) (product (rev (map it_vals (rev vars))))) by (rewrite <- prodF_product; now apply in_map).
      apply product_In in J. apply Forall2_len in J. rewrite !rev_length, map_length, rev_length in J. exact J. }
    rewrite <- (scopeV_rev vars) by (rewrite rev_length; exact L). now rewrite rev_involutive.
  - apply Forall_forall. apply idx_range.
  - unfold idx. rewrite prodF_length. unfold forCount. apply Nat.le_le_succ_r.
    clear. induction (rev vars) as [|it l IH]; [reflexivity|]. cbn [map fold_right]. rewrite seq_length. now apply Nat.mul_le_mono_l.
Qed.

(** *** C35 for lists *)
(** what the body yields for the combinations, in their order: [None] for undefined *)
Inductive runAll (t : value) : list binding -> ST -> list (option value) -> ST -> Prop :=
| RA_nil : forall s, runAll t [] s [] s
| RA_cons : forall sc scs s v i s1 os s2,
    evaluate (ESubst (EValue t)) sc false s = Ret (v, i, true) s1 -> isExpr v = false ->
    runAll t scs s1 os s2 ->
    runAll t (sc :: scs) s ((if f_undefined i then None else Some v) :: os) s2.
Fixpoint somes {A} (l : list (option A)) : list A :=
  match l with [] => [] | Some x :: r => x :: somes r | None :: r => somes r end.

(** the two halves of [forBody] *)
Definition keyPart (mapkey : option value) (sc : binding) (st : fstate) : M ST (bool * string * fstate) :=
  match mapkey with
  | None => ret ST (false, ""%string, st)
  | Some t => bind ST (evaluate (ESubst (EValue t)) sc false) (fun r =>
      let '(k, i, ok) := r in
      let st := if ok then st else mkFS false true (fs_list st) (fs_map st) in
      ret ST (if f_undefined i || match k with VNil => true | _ => false end then (true, ""%string, st)
           else match k with
                | VStr s => (false, s, st)
                | _ => (false, ""%string, mkFS false true (fs_list st) (fs_map st))
                end))
  end.
Definition addPart (mapkey : option value) (key : string) (n : node) (st : fstate) : fstate :=
  match mapkey with
  | Some _ => mkFS (fs_done st) (fs_issue st) (fs_list st) (mset key n (fs_map st))
  | None => mkFS (fs_done st) (fs_issue st) (fs_list st ++ [n]) (fs_map st)
  end.
Definition restPart (mapkey subst : option value) (body : node) (env sc : binding) (k : bool * string * fstate) : M ST fstate :=
  match subst with
  | None => ret ST (addPart mapkey (snd (fst k)) body (snd k))
  | Some t => bind ST (evaluate (ESubst (EValue t)) sc false) (fun r =>
      let '(v, i, ok) := r in
      ret ST (if negb ok then mkFS false true (fs_list (snd k)) (fs_map (snd k))
           else if isExpr v then mkFS false (fs_issue (snd k)) (fs_list (snd k)) (fs_map (snd k))
           else if fst (fst k) || f_undefined i then snd k
           else addPart mapkey (snd (fst k)) (dnode v (b_source env)) (snd k)))
  end.
Lemma forBody_parts : forall mk sb body env sc st s,
  forBody mk sb body env sc st s = bind ST (keyPart mk sc st) (restPart mk sb body env sc) s.
Proof.
  intros. unfold Control.forBody, bind. fold (keyPart mk sc st).
  change (match mk with None => _ | Some t => _ end s) with (keyPart mk sc st s).
  destruct (keyPart mk sc st s) as [[[a k] st1] s1| |]; reflexivity.
Qed.
Lemma keyPart_false : forall mk sc st s k s', keyPart mk sc st s = Ret k s' -> fs_done st = false -> fs_done (snd k) = false.
Proof.
  intros [t|] sc st s k s' H D; unfold keyPart, bind, ret in H.
  - destruct (evaluate (ESubst (EValue t)) sc false s) as [[[kv ki] ok] s2| |]; try discriminate. inversion H; subst.
    destruct (f_undefined ki || match kv with VNil => true | _ => false end); [destruct ok; auto|].
    destruct kv; try reflexivity. destruct ok; auto.
  - inversion H; subst. exact D.
Qed.
Lemma restPart_false : forall mk sb body env sc k s st' s', restPart mk sb body env sc k s = Ret st' s' ->
  fs_done (snd k) = false -> fs_done st' = false.
Proof.
  intros mk [t|] body env sc [[a k] st] s st' s' H D; unfold restPart, bind, ret in H; cbn [fst snd] in *.
  - destruct (evaluate (ESubst (EValue t)) sc false s) as [[[v i] ok] s2| |]; try discriminate. inversion H; subst.
    destruct (negb ok); [reflexivity|]. destruct (isExpr v); [reflexivity|]. destruct (a || f_undefined i); [exact D|].
    destruct mk; exact D.
  - inversion H; subst. destruct mk; exact D.
Qed.
Lemma foldBody_false : forall mk sb body env scs st s st' s',
  foldBody mk sb body env scs st s = Ret st' s' -> fs_done st = false -> fs_done st' = false.
Proof.
  intros mk sb body env. induction scs as [|sc scs IH]; intros st s st' s' H D.
  - cbn in H. unfold ret in H. now inversion H; subst.
  - cbn [foldBody] in H. unfold bind in H. destruct (forBody mk sb body env sc st s) as [st1 s1| |] eqn:B; try discriminate.
    refine (IH _ _ _ _ H _). clear H IH. rewrite forBody_parts in B. unfold bind in B.
    destruct (keyPart mk sc st s) as [k s2| |] eqn:K; try discriminate.
    eapply restPart_false; [exact B|]. eapply keyPart_false; eassumption.
Qed.

Lemma list_fold : forall t body env scs l s st' s', 
  foldBody None (Some t) body env scs (mkFS true false l []) s = Ret st' s' ->
  (fs_done st' = true <-> exists os, runAll t scs s os s') /\
  (forall os, runAll t scs s os s' -> st' = mkFS true false (l ++ map (fun v => dnode v (b_source env)) (somes os)) []).
Proof.
  intros t body env. induction scs as [|sc scs IH]; intros l s st' s' H.
  - cbn in H. unfold ret in H. inversion H; subst. split.
    + split; [intros _; exists []; constructor|reflexivity].
    + intros os R. inversion R; subst. cbn. now rewrite app_nil_r.
  - cbn [foldBody] in H. unfold bind in H. rewrite forBody_parts in H. unfold bind, keyPart, restPart, ret in H.
    cbn [fst snd] in H.
    unfold bind in H. destruct (evaluate (ESubst (EValue t)) sc false s) as [[[v i] ok] s1| |] eqn:E; try discriminate.
    cbn [fs_done fs_issue fs_list fs_map orb addPart] in H.
    destruct ok; cbn [negb] in H.
    2: { pose proof (foldBody_false _ _ _ _ _ _ _ _ _ H eq_refl) as D. split.
         - split; [congruence|]. intros [os R]. inversion R; congruence.
         - intros os R. inversion R; congruence. }
    destruct (isExpr v) eqn:X.
    { pose proof (foldBody_false _ _ _ _ _ _ _ _ _ H eq_refl) as D. split.
      - split; [congruence|]. intros [os R]. inversion R; subst. rewrite H2 in E. inversion E; congruence.
      - intros os R. inversion R; subst. rewrite H2 in E. inversion E; congruence. }
    assert (Q : forall os, runAll t (sc :: scs) s os s' <-> exists os', os = (if f_undefined i then None else Some v) :: os' /\ runAll t scs s1 os' s').
    { intro os. split.
      - intro R. inversion R; subst. rewrite H2 in E. inversion E; subst. eauto.
      - intros [os' [-> R]]. econstructor; eassumption. }
    destruct (f_undefined i).
    + destruct (IH _ _ _ _ H) as [A B]. split.
      * rewrite A. split; intros [os R]; [exists (None :: os); apply Q; eauto|]. apply Q in R. destruct R as [os' [_ R]]. eauto.
      * intros os R. apply Q in R. destruct R as [os' [-> R]]. cbn [somes]. now apply B.
    + destruct (IH _ _ _ _ H) as [A B]. split.
      * rewrite A. split; intros [os R]; [exists (Some v :: os); apply Q; eauto|]. apply Q in R. destruct R as [os' [_ R]]. eauto.
      * intros os R. apply Q in R. destruct R as [os' [-> R]]. cbn [somes map]. rewrite (B _ R). now rewrite <- app_assoc.
Qed.
Lemma runAll_fold : forall t body env scs s os s', runAll t scs s os s' -> forall l,
  exists st', foldBody None (Some t) body env scs (mkFS true false l []) s = Ret st' s'.
Proof.
  intros t body env scs s os s' R. induction R as [s|sc scs s v i s1 os s2 E X R IH]; intro l; [eexists; reflexivity|].
  cbn [foldBody]. unfold bind. rewrite forBody_parts. unfold bind, keyPart, restPart, ret. cbn [fst snd].
  unfold bind. rewrite E. cbn [negb orb fs_done fs_issue fs_list fs_map addPart]. rewrite X. destruct (f_undefined i); apply IH.
Qed.

(** a for control that is ready, with the body [body] and the control variables
    [vars], the outermost one first *)
Record forControl (c : cctx) (body : node) (vars : list iteration) : Prop := mkForControl {
  fc_ready : controlReady ctrl c false = None;
  fc_defined : a_undefined (ann (cc_value c)) = false;
  fc_body : mget "do" (cc_options c) = Some body;
  fc_ranges : forRanges (cc_value c) = Some (rev vars);
  fc_nonempty : Forall (fun it => it_vals it <> []) vars
}.
Lemma flowFor_fold : forall c body vars env mk, forControl c body vars ->
  (match mget "mapkey" (cc_options c) with None => mk = None | Some k => exists t, isTemplate (val k) = true /\ mk = Some t /\ t = val k end) ->
  forall s, flowFor c env s =
    bind ST (foldBody mk (templateVal body) body env (scopes env vars) (mkFS true false [] [])) (fun st =>
      ret ST (if fs_done st
         then (dnode (match mk with Some _ => VMap (fs_map st) | None => VList (fs_list st) end) (b_source env), true)
         else if fs_issue st then controlFailed c "error evaluating body" else (cc_node c, false))) s.
Proof.
  intros c body vars env mk [R D B G N] MK s. unfold Control.flowFor. rewrite R, B, D.
  assert (E : (match mget "mapkey" (cc_options c) with None => Some None | Some k => option_map Some (templateVal k) end) = Some mk).
  { destruct (mget "mapkey" (cc_options c)) as [k|]; [|now subst].
    destruct MK as [t [T [-> ->]]]. unfold templateVal. now rewrite T. }
  rewrite E, G. unfold bind. rewrite forLoop_fold by exact N. reflexivity.
Qed.

(** C35: the control is done with the list [n] iff the body is done for all
    combinations of the product, in its order, and [n] is the list of the results
    without the undefined ones *)
Theorem C35_list : forall c body t vars env s n s',
  forControl c body vars -> mget "mapkey" (cc_options c) = None -> val body = t -> isTemplate t = true ->
  (flowFor c env s = Ret (n, true) s' <->
   exists os, runAll t (scopes env vars) s os s' /\
     n = dnode (VList (map (fun v => dnode v (b_source env)) (somes os))) (b_source env)).
Proof.
  intros c body t vars env s n s' F K E T.
  rewrite (flowFor_fold _ _ _ env None F) by (now rewrite K).
  unfold templateVal. rewrite E, T. unfold bind, ret. split.
  - intro H. destruct (foldBody _ _ _ _ _ _ _) as [st s1| |] eqn:Q; try discriminate.
    destruct (list_fold _ _ _ _ _ _ _ _ Q) as [A B]. destruct (fs_done st) eqn:D.
    + inversion H; subst. destruct (proj1 A eq_refl) as [os R]. exists os. split; [exact R|]. now rewrite (B _ R).
    + destruct (fs_issue st); discriminate.
  - intros [os [R ->]]. destruct (runAll_fold _ body env _ _ _ _ R []) as [st Q]. rewrite Q.
    destruct (list_fold _ _ _ _ _ _ _ _ Q) as [_ B]. now rewrite (B _ R).
Qed.
(** a body that is no template is repeated once per combination *)
Theorem C35_constant : forall c body vars env s,
  forControl c body vars -> mget "mapkey" (cc_options c) = None -> isTemplate (val body) = false ->
  flowFor c env s = Ret (dnode (VList (repeat body (length (product (map it_vals vars))))) (b_source env), true) s.
Proof.
  intros c body vars env s F K T. rewrite (flowFor_fold _ _ _ env None F) by (now rewrite K).
  unfold templateVal. rewrite T. replace (length (product (map it_vals vars))) with (length (scopes env vars)) by (unfold scopes; now rewrite map_length).
  assert (G : forall scs l, foldBody None None body env scs (mkFS true false l []) s = Ret (mkFS true false (l ++ repeat body (length scs)) []) s).
  { clear. induction scs as [|sc scs IH]; intro l; [cbn; now rewrite app_nil_r|].
    cbn [foldBody]. unfold bind. rewrite forBody_parts. cbn [keyPart restPart bind ret addPart]. unfold bind, ret. cbn [fst snd fs_done fs_issue fs_list fs_map].
    rewrite IH. now rewrite <- app_assoc. }
  unfold bind. now rewrite G.
Qed.

(** *** C35 for maps *)
Inductive runAllM (k t : value) : list binding -> ST -> list (option (string * value)) -> ST -> Prop :=
| RM_nil : forall s, runAllM k t [] s [] s
| RM_skip : forall sc scs s kv ki s1 v i s2 os s3,
    evaluate (ESubst (EValue k)) sc false s = Ret (kv, ki, true) s1 ->
    f_undefined ki = true \/ kv = VNil ->
    evaluate (ESubst (EValue t)) sc false s1 = Ret (v, i, true) s2 -> isExpr v = false ->
    runAllM k t scs s2 os s3 -> runAllM k t (sc :: scs) s (None :: os) s3
| RM_cons : forall sc scs s key ki s1 v i s2 os s3,
    evaluate (ESubst (EValue k)) sc false s = Ret (VStr key, ki, true) s1 -> f_undefined ki = false ->
    evaluate (ESubst (EValue t)) sc false s1 = Ret (v, i, true) s2 -> isExpr v = false ->
    runAllM k t scs s2 os s3 ->
    runAllM k t (sc :: scs) s ((if f_undefined i then None else Some (key, v)) :: os) s3.
(** the last entry for a key *)
Fixpoint lastOf {A} (x : string) (l : list (string * A)) : option A :=
  match l with
  | [] => None
  | (k, v) :: r => match lastOf x r with Some w => Some w | None => if String.eqb x k then Some v else None end
  end.
Definition putEntries (src : string) (l : list (string * value)) (m : smap node) : smap node :=
  fold_left (fun m kv => mset (fst kv) (dnode (snd kv) src) m) l m.
Lemma putEntries_get : forall src l m x,
  mget x (putEntries src l m) = match lastOf x l with Some v => Some (dnode v src) | None => mget x m end.
Proof.
  induction l as [|[k v] l IH]; intros m x; [reflexivity|]. unfold putEntries in *. cbn [fold_left fst snd lastOf]. rewrite IH.
  destruct (lastOf x l); [reflexivity|]. rewrite mget_mset. destruct (String.eqb x k); reflexivity.
Qed.

Lemma map_fold : forall k t body env scs m s st' s',
  foldBody (Some k) (Some t) body env scs (mkFS true false [] m) s = Ret st' s' ->
  (fs_done st' = true -> exists os, runAllM k t scs s os s') /\
  (forall os, runAllM k t scs s os s' -> st' = mkFS true false [] (putEntries (b_source env) (somes os) m)).
Proof.
  intros k t body env. induction scs as [|sc scs IH]; intros m s st' s' H.
  - cbn in H. unfold ret in H. inversion H; subst. split; [intros _; exists []; constructor|].
    intros os R. inversion R; subst. reflexivity.
  - cbn [foldBody] in H. unfold bind in H. rewrite forBody_parts in H. unfold bind, keyPart, restPart, ret in H.
    cbn [fst snd] in H. unfold bind in H.
    destruct (evaluate (ESubst (EValue k)) sc false s) as [[[kv ki] okk] s1| |] eqn:E1; try discriminate.
    match type of H with context [snd (if ?c then _ else _)] => destruct c eqn:U end; cbn [fst snd fs_done fs_issue fs_list fs_map] in H.
    + destruct (evaluate (ESubst (EValue t)) sc false s1) as [[[v i] ok] s2| |] eqn:E2; try discriminate.
      destruct okk.
      2: { assert (D : fs_done st' = false).
           { refine (foldBody_false _ _ _ _ _ _ _ _ _ H _). destruct ok; cbn [negb]; [|reflexivity]. destruct (isExpr v); reflexivity. }
           split; [congruence|]. intros os R. inversion R; congruence. }
      destruct ok; cbn [negb] in H.
      2: { split; [intro D; pose proof (foldBody_false _ _ _ _ _ _ _ _ _ H eq_refl); congruence|]. intros os R. inversion R; congruence. }
      destruct (isExpr v) eqn:X.
      { split; [intro D; pose proof (foldBody_false _ _ _ _ _ _ _ _ _ H eq_refl); congruence|]. intros os R. inversion R; congruence. }
      cbn [orb] in H. destruct (IH _ _ _ _ H) as [A B]. split.
      * intro D. destruct (A D) as [os R]. exists (None :: os). eapply RM_skip; try eassumption.
        apply Bool.orb_true_iff in U. destruct U as [U|U]; [now left|right; now destruct kv].
      * intros os R. inversion R as [|? ? ? ? ? ? ? ? ? ? ? F1 F2 F3 F4 F5|? ? ? ? ? ? ? ? ? ? ? F1 F2 F3 F4 F5]; subst.
        -- rewrite F1 in E1. inversion E1; subst. rewrite F3 in E2. inversion E2; subst. cbn [somes]. now apply B.
        -- rewrite F1 in E1. inversion E1; subst. rewrite F2 in U. discriminate.
    + assert (KV : (exists key, kv = VStr key) \/ (forall key, kv <> VStr key)).
      { destruct kv; try (right; congruence). left. eauto. }
      destruct KV as [[key ->]|NK].
      * cbn [fst snd] in H.
        destruct (evaluate (ESubst (EValue t)) sc false s1) as [[[v i] ok] s2| |] eqn:E2; try discriminate.
        destruct okk.
        2: { assert (D : fs_done st' = false).
             { refine (foldBody_false _ _ _ _ _ _ _ _ _ H _). destruct ok; cbn [negb]; [|reflexivity]. destruct (isExpr v); [reflexivity|].
               cbn [orb]. destruct (f_undefined i); reflexivity. }
             split; [congruence|]. intros os R. inversion R; congruence. }
        destruct ok; cbn [negb] in H.
        2: { split; [intro D; pose proof (foldBody_false _ _ _ _ _ _ _ _ _ H eq_refl); congruence|]. intros os R. inversion R; congruence. }
        destruct (isExpr v) eqn:X.
        { split; [intro D; pose proof (foldBody_false _ _ _ _ _ _ _ _ _ H eq_refl); congruence|]. intros os R. inversion R; congruence. }
        apply Bool.orb_false_iff in U. destruct U as [U _].
        cbn [orb addPart fs_done fs_issue fs_list fs_map] in H. 
        assert (Q : forall os, runAllM k t (sc :: scs) s os s' -> exists os', os = (if f_undefined i then None else Some (key, v)) :: os' /\ runAllM k t scs s2 os' s').
        { intros os R. inversion R as [|? ? ? ? ? ? ? ? ? ? ? F1 F2 F3 F4 F5|? ? ? ? ? ? ? ? ? ? ? F1 F2 F3 F4 F5]; subst.
          - rewrite F1 in E1. inversion E1; subst. destruct F2; congruence.
          - rewrite F1 in E1. inversion E1; subst. rewrite F3 in E2. inversion E2; subst. eauto. }
        destruct (f_undefined i) eqn:UI.
        -- destruct (IH _ _ _ _ H) as [A B]. split.
           ++ intro D. destruct (A D) as [os R]. exists ((if f_undefined i then None else Some (key, v)) :: os). eapply RM_cons; eassumption.
           ++ intros os R. destruct (Q os R) as [os' [-> R']]. cbn [somes]. now apply B.
        -- destruct (IH _ _ _ _ H) as [A B]. split.
           ++ intro D. destruct (A D) as [os R]. exists ((if f_undefined i then None else Some (key, v)) :: os). eapply RM_cons; eassumption.
           ++ intros os R. destruct (Q os R) as [os' [-> R']]. cbn [somes]. unfold putEntries. cbn [fold_left fst snd]. now apply B.
      * match type of H with context [fst (fst ?x)] => assert (D : fs_done (snd x) = false) by (destruct kv; try reflexivity; exfalso; eapply NK; reflexivity);
          generalize dependent x; intros kp H D end.
        destruct (evaluate (ESubst (EValue t)) sc false s1) as [[[v i] ok] s2| |] eqn:E2; try discriminate.
        assert (D' : fs_done st' = false).
        { refine (foldBody_false _ _ _ _ _ _ _ _ _ H _). destruct ok; cbn [negb]; [|reflexivity]. destruct (isExpr v); [reflexivity|].
          destruct (fst (fst kp) || f_undefined i); exact D. }
        split; [congruence|]. intros os R. exfalso.
        inversion R as [|? ? ? ? ? ? ? ? ? ? ? F1 F2 F3 F4 F5|? ? ? ? ? ? ? ? ? ? ? F1 F2 F3 F4 F5]; subst.
        -- rewrite F1 in E1. inversion E1; subst. destruct F2 as [F2| ->]; [rewrite F2 in U; discriminate|].
           rewrite Bool.orb_true_r in U. discriminate.
        -- rewrite F1 in E1. inversion E1; subst. now apply (NK key).
Qed.
Lemma runAllM_fold : forall k t body env scs s os s', runAllM k t scs s os s' -> forall m,
  exists st', foldBody (Some k) (Some t) body env scs (mkFS true false [] m) s = Ret st' s'.
Proof.
  intros k t body env scs s os s' R.
  induction R as [s|sc scs s kv ki s1 v i s2 os s3 E1 K E2 X R IH|sc scs s key ki s1 v i s2 os s3 E1 U E2 X R IH]; intro m; [eexists; reflexivity| |];
  cbn [foldBody]; unfold bind; rewrite forBody_parts; unfold bind, keyPart, restPart, ret; cbn [fst snd]; unfold bind; rewrite E1.
  - assert (Q : f_undefined ki || match kv with VNil => true | _ => false end = true).
    { destruct K as [-> | ->]; [reflexivity|]. apply Bool.orb_true_r. }
    rewrite Q. cbn [fst snd]. rewrite E2. cbn [negb orb]. rewrite X. apply IH.
  - rewrite U. cbn [orb fst snd]. rewrite E2. cbn [negb]. rewrite X. destruct (f_undefined i); apply IH.
Qed.
(** C35: with a map key the control is done with a map iff keys and bodies are done
    for all combinations in the order of the product; combinations without key or
    with an undefined body are left out, a later entry replaces an earlier one *)
Theorem C35_map : forall c body t key k vars env s n s',
  forControl c body vars -> val body = t -> isTemplate t = true ->
  mget "mapkey" (cc_options c) = Some key -> val key = k -> isTemplate k = true ->
  (flowFor c env s = Ret (n, true) s' <->
   exists os, runAllM k t (scopes env vars) s os s' /\
     n = dnode (VMap (putEntries (b_source env) (somes os) [])) (b_source env)) /\
  (forall os x, mget x (putEntries (b_source env) (somes os) []) = option_map (fun v => dnode v (b_source env)) (lastOf x (somes os))).
Proof.
  intros c body t key k vars env s n s' F E T K EK TK. split.
  2: { intros os x. rewrite putEntries_get. now destruct (lastOf x (somes os)). }
  rewrite (flowFor_fold _ _ _ env (Some k) F) by (rewrite K; exists k; subst; auto).
  unfold templateVal. rewrite E, T. unfold bind, ret. split.
  - intro H. destruct (foldBody _ _ _ _ _ _ _) as [st s1| |] eqn:Q; try discriminate.
    destruct (map_fold _ _ _ _ _ _ _ _ _ Q) as [A B]. destruct (fs_done st) eqn:D.
    + inversion H; subst. destruct (A eq_refl) as [os R]. exists os. split; [exact R|]. now rewrite (B _ R).
    + destruct (fs_issue st); discriminate.
  - intros [os [R ->]]. destruct (runAllM_fold _ _ body env _ _ _ _ R []) as [st Q]. rewrite Q.
    destruct (map_fold _ _ _ _ _ _ _ _ _ Q) as [_ B]. now rewrite (B _ R).
Qed.

(** an empty range does not yield an empty result: the control crashes as soon as
    one of several valid control variables has no values *)
Theorem C35_empty_refuted : forall c body vars env s,
  controlReady ctrl c false = None -> a_undefined (ann (cc_value c)) = false ->
  mget "do" (cc_options c) = Some body -> mget "mapkey" (cc_options c) = None ->
  forRanges (cc_value c) = Some (rev vars) ->
  Exists (fun it => it_vals it = []) vars ->
  flowFor c env s = Panic.
Proof.
  intros c body vars env s R D B K G X. unfold Control.flowFor. rewrite R, B, D, K, G.
  assert (Y : Exists (fun it => it_vals it = []) (rev vars)).
  { apply Exists_exists. apply Exists_exists in X. destruct X as [it [I E]]. exists it. split; [now apply -> in_rev|exact E]. }
  assert (F : forall rs inp, Exists (fun it => it_vals it = []) rs -> forScope rs (map (fun _ => O) rs) inp = None).
  { clear. induction rs as [|it rs IH]; intros inp H; [inversion H|]. cbn [map forScope]. inversion H; subst.
    - now rewrite H1.
    - destruct (it_vals it) as [|[i n] l]; [reflexivity|]. cbn [nth_error]. now apply IH. }
  cbn [Control.forLoop]. unfold bind. now rewrite (F _ _ Y).
Qed.
(** no control variables: a single combination *)
Theorem C35_no_variables : forall env, scopes env [] = [withLocalScope [] env].
Proof. reflexivity. Qed.
End For.

(** C35: the number of combinations *)
Theorem C35_count : forall env vars,
  length (scopes env vars) = fold_right (fun it n => (length (it_vals it) * n)%nat) 1%nat vars.
Proof.
  intros env vars. unfold scopes. rewrite map_length, product_length. induction vars as [|it vars IH]; [reflexivity|].
  cbn [map fold_right]. now rewrite IH.
Qed.
(** the order is lexicographic in the positions, the last variable changes fastest *)
Fixpoint lexLt (a b : list nat) : Prop :=
  match a, b with
  | x :: a, y :: b => (x < y)%nat \/ x = y /\ lexLt a b
  | _, _ => False
  end.
Definition elementsAt {A} (ranges : list (list A)) (pos : list nat) (combo : list A) : Prop :=
  Forall2 (fun rp x => nth_error (fst rp) (snd rp) = Some x) (combine ranges pos) combo /\ length pos = length ranges.
(** entry [i] of the product stands before entry [j] iff its positions are
    lexicographically smaller *)
Fixpoint position (sizes : list nat) (pos : list nat) : nat :=
  match sizes, pos with
  | n :: ns, p :: ps => (p * fold_right Nat.mul 1 ns + position ns ps)%nat
  | _, _ => O
  end.
Lemma nth_flat_const : forall {A B} (f : A -> list B) l k p q, (forall x, length (f x) = k) -> (q < k)%nat ->
  nth_error (flat_map f l) (p * k + q) = match nth_error l p with Some x => nth_error (f x) q | None => None end.
Proof.
  intros A B f l k p q H Q. revert p. induction l as [|x l IH]; intro p.
  - cbn [flat_map]. destruct (p * k + q)%nat, p; reflexivity.
  - cbn [flat_map]. destruct p.
    + cbn [Nat.mul Nat.add nth_error]. apply nth_error_app1. rewrite H. exact Q.
    + cbn [nth_error]. rewrite <- IH, nth_error_app2 by (rewrite H; lia). f_equal. rewrite H. lia.
Qed.
(** C35: the position of every combination *)
Theorem C35_position : forall {A} (ranges : list (list A)) pos combo, elementsAt ranges pos combo ->
  nth_error (product ranges) (position (map (@length A) ranges) pos) = Some combo.
Proof.
  intros A. induction ranges as [|r ranges IH]; intros [|p pos] combo [F L]; try discriminate.
  - inversion F; subst. reflexivity.
  - cbn [combine] in F. inversion F as [|? x ? c' E F']; subst. cbn [fst snd] in E. cbn [product map position].
    assert (K : length (product ranges) = fold_right Nat.mul 1%nat (map (@length A) ranges)).
    { rewrite product_length. clear. induction ranges; [reflexivity|]. cbn. now rewrite IHranges. }
    assert (IH' : nth_error (product ranges) (position (map (@length A) ranges) pos) = Some c').
    { apply IH. split; [exact F'|]. cbn in L. congruence. }
    rewrite (nth_flat_const _ r (fold_right Nat.mul 1%nat (map (@length A) ranges))).
    + rewrite E. now rewrite nth_error_map, IH'.
    + intro y. now rewrite map_length.
    + rewrite <- K. apply nth_error_Some. congruence.
Qed.
Lemma position_bound : forall {A} (ranges : list (list A)) pos combo, elementsAt ranges pos combo ->
  (position (map (@length A) ranges) pos < fold_right Nat.mul 1 (map (@length A) ranges))%nat.
Proof.
  intros A ranges pos combo H. pose proof (C35_position ranges pos combo H) as E.
  assert (K : length (product ranges) = fold_right Nat.mul 1%nat (map (@length A) ranges)).
  { rewrite product_length. clear. induction ranges; [reflexivity|]. cbn. now rewrite IHranges. }
  rewrite <- K. apply nth_error_Some. congruence.
Qed.
Theorem C35_order : forall {A} (ranges : list (list A)) pos pos' combo combo',
  elementsAt ranges pos combo -> elementsAt ranges pos' combo' ->
  (lexLt pos pos' <-> (position (map (@length A) ranges) pos < position (map (@length A) ranges) pos')%nat).
Proof.
  intros A. induction ranges as [|r ranges IH]; intros [|p pos] [|p' pos'] combo combo' H H'; try (destruct H, H'; discriminate).
  - cbn. lia.
  - assert (T : exists c, elementsAt ranges pos c).
    { destruct H as [F L]. cbn [combine] in F. inversion F; subst. eexists. split; [eassumption|]. cbn in L. congruence. }
    assert (T' : exists c, elementsAt ranges pos' c).
    { destruct H' as [F L]. cbn [combine] in F. inversion F; subst. eexists. split; [eassumption|]. cbn in L. congruence. }
    destruct T as [c T], T' as [c' T']. specialize (IH _ _ _ _ T T').
    pose proof (position_bound _ _ _ T) as B. pose proof (position_bound _ _ _ T') as B'.
    cbn [map position lexLt]. rewrite IH. clear - B B'. revert B B'.
    generalize (position (map (@length A) ranges) pos), (position (map (@length A) ranges) pos').
    generalize (fold_right Nat.mul 1%nat (map (@length A) ranges)). intros k a b B B'. split.
    + intros [L|[-> L]]; [|lia]. assert (S p * k <= p' * k)%nat by (apply Nat.mul_le_mono_r; lia). cbn in H. lia.
    + intro L. destruct (Nat.lt_trichotomy p p') as [G|[-> |G]]; [now left|right; lia|].
      assert (S p' * k <= p * k)%nat by (apply Nat.mul_le_mono_r; lia). cbn in H. lia.
Qed.

(** C35: the scope of a combination: every control variable is bound to its element
    and its index name to the index, nothing else is bound *)
Definition varNames (vars : list iteration) : list string := flat_map (fun it => [it_name it; it_index it]) vars.
Theorem C35_scope : forall vars combo, length combo = length vars -> NoDup (varNames vars) ->
  (forall it i n, In (it, (i, n)) (combine vars combo) ->
     mget (it_name it) (forVars vars combo) = Some n /\ mget (it_index it) (forVars vars combo) = Some (newNode i "for")) /\
  (forall x, ~ In x (varNames vars) -> mget x (forVars vars combo) = None).
Proof.
  induction vars as [|it vars IH]; intros [|[i n] combo] L N; try discriminate.
  - split; [intros ? ? ? []|reflexivity].
  - cbn [varNames flat_map app] in N. fold (varNames vars) in N. inversion N as [|? ? N1 N2]; subst. inversion N2 as [|? ? N3 N4]; subst.
    cbn in L. destruct (IH combo ltac:(congruence) N4) as [A B]. cbn [forVars combine]. split.
    + intros it' i' n' [E|I].
      * inversion E; subst. rewrite !mget_mset, !String.eqb_refl.
        assert (Q : String.eqb (it_name it') (it_index it') = false).
        { apply String.eqb_neq. intro Q. apply N1. left. now symmetry. }
        rewrite Q. split; reflexivity.
      * assert (J : In (it_name it') (varNames vars) /\ In (it_index it') (varNames vars)).
        { apply in_combine_l in I. split; apply in_flat_map; exists it'; split; auto; cbn; auto. }
        destruct J as [J1 J2].
        assert (Q : forall x, In x (varNames vars) -> String.eqb x (it_index it) = false /\ String.eqb x (it_name it) = false).
        { intros x X. split; apply String.eqb_neq; intros ->; [now apply N3|]. apply N1. now right. }
        destruct (Q _ J1) as [Q1 Q2], (Q _ J2) as [Q3 Q4]. rewrite !mget_mset, Q1, Q2, Q3, Q4. now apply A.
    + intros x X. rewrite !mget_mset.
      destruct (String.eqb x (it_index it)) eqn:E1; [apply String.eqb_eq in E1; subst; exfalso; apply X; cbn; auto|].
      destruct (String.eqb x (it_name it)) eqn:E2; [apply String.eqb_eq in E2; subst; exfalso; apply X; cbn; auto|].
      apply B. intro Y. apply X. cbn. auto.
Qed.

(** *** The control variables of the specification *)
(** the elements of a range with their indices: the entries of a list with their
    positions, the entries of a map with their keys in the order of the keys *)
Inductive rangeOf : value -> list (value * node) -> Prop :=
| RO_list : forall l, rangeOf (VList l) (combine (map (fun i => VInt (Z.of_nat i)) (seq 0 (length l))) l)
| RO_map : forall m, rangeOf (VMap m) (map (fun kv => (VStr (fst kv), snd kv)) m).
Lemma listIter_seq : forall l k, listIter (Z.of_nat k) l = combine (map (fun i => VInt (Z.of_nat i)) (seq k (length l))) l.
Proof.
  induction l as [|n l IH]; intro k; [reflexivity|]. cbn [listIter length seq map combine]. rewrite <- IH. do 2 f_equal. lia.
Qed.
Lemma controlIterator_range : forall n vals, controlIterator n = Some vals <-> rangeOf (val n) vals.
Proof.
  intros n vals. unfold controlIterator. split.
  - intro H. destruct (val n); try discriminate; inversion H; subst; [|constructor].
    change 0%Z with (Z.of_nat 0). rewrite listIter_seq. constructor.
  - inversion 1; subst; [|reflexivity]. change 0%Z with (Z.of_nat 0). now rewrite listIter_seq.
Qed.
(** a valid name contains a letter, a digit or an underscore *)
Definition goodName (s : string) : Prop := exists c, In c (chars s) /\ nameChar c = true.
Lemma checkName_good : forall s, checkName s = true <-> goodName s.
Proof. intro s. unfold checkName. apply existsb_exists. Qed.
(** an entry of a list of control variables *)
Definition listVar (n : node) (it : iteration) : Prop := exists spec nm vs,
  val n = VMap spec /\ mget "name" spec = Some nm /\ val nm = VStr (it_name it) /\ goodName (it_name it) /\
  mget "values" spec = Some vs /\ rangeOf (val vs) (it_vals it) /\
  ((mget "index" spec = None /\ length spec = 2%nat /\ it_index it = "index-" +++ it_name it)%string \/
   (exists x, mget "index" spec = Some x /\ val x = VStr (it_index it) /\ length spec = 3%nat /\ goodName (it_index it))).
Lemma goodName_nonempty : forall s, goodName s -> s <> ""%string.
Proof. intros s [c [I _]] ->. destruct I. Qed.
Lemma listVar_spec : forall n it, listVar n it -> listSpec1 n = Some it.
Proof.
  intros n it [spec [nm [vs [E [N [EN [G [V [R X]]]]]]]]]. unfold listSpec1. rewrite E, N, EN, V.
  apply controlIterator_range in R. destruct X as [[X [L I]]|[x [X [EX [L GI]]]]]; rewrite X.
  - rewrite R, L. cbn [Nat.ltb Nat.leb Nat.eqb orb andb]. unfold controlIteration. rewrite (proj2 (checkName_good _) G). cbn [String.eqb].
    destruct it as [a b c]. cbn [it_name it_index it_vals] in *. now rewrite I.
  - rewrite EX, R, L. cbn [Nat.ltb Nat.leb Nat.eqb orb andb].
    pose proof (goodName_nonempty _ GI) as NE. destruct (String.eqb_spec (it_index it) ""); [contradiction|]. cbn [andb].
    unfold controlIteration. rewrite (proj2 (checkName_good _) G).
    destruct (String.eqb_spec (it_index it) ""); [contradiction|]. rewrite (proj2 (checkName_good _) GI).
    destruct it; reflexivity.
Qed.
(** C35: a list specifies its control variables in the order of the nesting *)
Theorem C35_list_variables : forall n l vars, val n = VList l -> Forall2 listVar l vars -> forRanges n = Some (rev vars).
Proof.
  intros n l vars E F. unfold forRanges. rewrite E.
  assert (H : listSpec l = Some vars).
  { clear E. induction F as [|x it l vars H F IH]; [reflexivity|]. cbn [listSpec]. now rewrite (listVar_spec _ _ H), IH. }
  now rewrite H.
Qed.
(** an entry of a map of control variables: "name" or "index, name" *)
Definition mapVar (kv : string * node) (it : iteration) : Prop :=
  rangeOf (val (snd kv)) (it_vals it) /\ goodName (it_name it) /\
  ((exists x, split (fst kv) "," = [x] /\ trimSpace x = it_name it /\ it_index it = "index-" +++ it_name it)%string \/
   (exists x y, split (fst kv) "," = [x; y] /\ trimSpace y = it_name it /\ trimSpace x = it_index it /\ goodName (it_index it))).
Definition before (a b : iteration) : Prop :=
  String.compare (it_name a) (it_name b) = Lt \/
  (it_name a = it_name b /\ String.compare (it_index a) (it_index b) <> Gt).
Lemma iterBefore_before : forall a b, iterBefore a b = true -> before b a.
Proof.
  intros a b H. unfold iterBefore in H. rewrite String.compare_antisym in H.
  destruct (String.compare (it_name b) (it_name a)) eqn:E; cbn [CompOpp] in H; try discriminate; [|now left].
  right. split; [now apply String.compare_eq_iff|]. rewrite String.compare_antisym in H.
  destruct (String.compare (it_index b) (it_index a)); cbn in H; congruence.
Qed.
Lemma iterBefore_not : forall a b, iterBefore a b = false -> before a b.
Proof.
  intros a b H. unfold iterBefore in H. destruct (String.compare (it_name a) (it_name b)) eqn:E; try discriminate; [|now left].
  right. split; [now apply String.compare_eq_iff|]. now destruct (String.compare (it_index a) (it_index b)).
Qed.
Lemma iterInsert_perm : forall x l, Permutation (x :: l) (iterInsert x l).
Proof.
  induction l as [|y l IH]; [reflexivity|]. cbn [iterInsert]. destruct (iterBefore y x); [|reflexivity].
  rewrite perm_swap. now constructor.
Qed.
Lemma iterSort_perm : forall l, Permutation l (iterSort l).
Proof.
  induction l as [|x l IH]; [reflexivity|]. cbn. rewrite IH at 1. apply iterInsert_perm.
Qed.
Definition after (a b : iteration) : Prop := before b a.
Lemma iterInsert_sorted : forall x l, Sorted.Sorted after l -> Sorted.Sorted after (iterInsert x l).
Proof.
  induction l as [|y l IH]; intro H; [repeat constructor|]. cbn [iterInsert]. destruct (iterBefore y x) eqn:B.
  - inversion H as [|? ? S R]; subst. constructor; [now apply IH|].
    destruct l as [|z l]; cbn [iterInsert].
    + constructor. now apply iterBefore_before.
    + destruct (iterBefore z x); constructor.
      * inversion R; subst. assumption.
      * now apply iterBefore_before.
  - constructor; [exact H|]. constructor. now apply iterBefore_not.
Qed.
Lemma iterSort_sorted : forall l, Sorted.Sorted after (iterSort l).
Proof. induction l as [|x l IH]; [constructor|]. cbn. now apply iterInsert_sorted. Qed.
Lemma Sorted_rev : forall l, Sorted.Sorted after l -> Sorted.Sorted before (rev l).
Proof.
  intros l H. induction l as [|x l IH]; [constructor|]. inversion H as [|? ? S R]; subst. cbn [rev]. specialize (IH S).
  destruct l as [|y l]; [repeat constructor|]. inversion R; subst. cbn [rev] in *.
  clear H S R. revert IH. generalize (rev l). intro r. induction r as [|z r IHr]; intro T.
  - cbn [app] in *. constructor; [constructor; constructor|constructor; exact H1].
  - cbn [app] in *. inversion T as [|? ? S R]; subst. constructor; [now apply IHr|].
    destruct r; cbn [app] in *; inversion R; subst; now constructor.
Qed.
Lemma mapVar_spec : forall k n it, mapVar (k, n) it ->
  (match split k "," with
   | [x] => mkIteration (trimSpace x) "" n
   | [x; y] => mkIteration (trimSpace y) (trimSpace x) n
   | _ => None
   end) = Some it.
Proof.
  intros k n it [R [G X]]. cbn [fst snd] in *. apply controlIterator_range in R.
  destruct X as [[x [S [T I]]]|[x [y [S [T [I GI]]]]]]; rewrite S; unfold mkIteration; rewrite R; unfold controlIteration; rewrite T.
  - rewrite (proj2 (checkName_good _) G). cbn [String.eqb]. destruct it as [a b c]; cbn in I |- *. now rewrite I.
  - rewrite (proj2 (checkName_good _) G), I. pose proof (goodName_nonempty _ GI).
    destruct (String.eqb_spec (it_index it) ""); [contradiction|]. rewrite (proj2 (checkName_good _) GI). destruct it; reflexivity.
Qed.
(** C35: a map specifies its control variables in any order; they nest in the
    order of their names *)
Theorem C35_map_variables : forall n m its, val n = VMap m -> Forall2 mapVar m its ->
  exists vars, forRanges n = Some (rev vars) /\ Permutation its vars /\ Sorted.Sorted before vars.
Proof.
  intros n m its E F. exists (rev (iterSort its)). unfold forRanges. rewrite E, rev_involutive. repeat split.
  - assert (H : mapSpec m = Some its).
    { clear E. induction F as [|[k x] it m its H F IH]; [reflexivity|]. cbn [mapSpec]. now rewrite (mapVar_spec _ _ _ H), IH. }
    now rewrite H.
  - rewrite <- Permutation_rev. apply iterSort_perm.
  - apply Sorted_rev, iterSort_sorted.
Qed.

Print Assumptions C35_list.
Print Assumptions C35_constant.
Print Assumptions C35_map.
Print Assumptions C35_empty_refuted.
Print Assumptions C35_no_variables.
Print Assumptions C35_count.
Print Assumptions C35_position.
Print Assumptions C35_order.
Print Assumptions C35_scope.
Print Assumptions C35_list_variables.
Print Assumptions C35_map_variables.
