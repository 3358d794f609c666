(** Lemmas for C55: looking up references in a document in progress. *)
From Coq Require Import Lia.
From Verif Require Import Core CoreFacts Str StrFacts DecSpec Interp Find FindFacts EquivFacts PropInterp
  Cleanup Unresolved PropUnresolved DeepEq DeepEqFacts Env Flow FlowSpec FlowFacts FlowPass FlowMerge FlowStable
  Arith IP Comparison RangeSlice ListFns Info Eval Control Engine EngineFacts Runs FlowDoc DocSpec.
From Verif Require PropRef PropInfo PropFlow.
Import ListNotations.
Open Scope string_scope. Open Scope list_scope.

(** ** positions *)
Lemma snoc_split : forall (A : Type) (p0 q : list A) (k k' : A) r, p0 ++ [k] = q ++ k' :: r ->
  (q = p0 /\ r = []) \/ (exists r', p0 = q ++ k' :: r').
Proof.
  intros A p0 q k k' r E. destruct r as [|x r] using rev_ind.
  - left. apply app_inj_tail in E. split; [symmetry; tauto|reflexivity].
  - right. clear IHr. change (q ++ k' :: r ++ [x]) with (q ++ (k' :: r) ++ [x]) in E. rewrite app_assoc in E. apply app_inj_tail in E. exists r. tauto.
Qed.
Lemma outward_ex : forall b, exists bs, PropInfo.outward b bs.
Proof.
  fix IH 1. intro b. destruct (b_outer b) as [o|] eqn:E.
  - destruct b as [sc ro p sp st nm so sta [o'|] cu ac bi]; [|discriminate E]. destruct (IH o') as (l & H).
    eexists. eapply PropInfo.OW_next; [reflexivity|exact H].
  - exists [b]. now constructor.
Qed.
Lemma mget_In1 : forall (A : Type) (k : string) (m : smap A), In k (map fst m) -> exists x, mget k m = Some x.
Proof.
  intros A k m. induction m as [|[k0 x] m IH]; intro I; [destruct I|]. cbn [mget]. destruct (String.eqb_spec k k0); [eauto|].
  apply IH. destruct I as [I|I]; [cbn in I; congruence|exact I].
Qed.

Lemma idx_nat : forall i k, idx (Z.of_nat i) = idx (Z.of_nat k) -> i = k.
Proof.
  intros i k E. unfold idx in E. injection E as E. apply sapp_inj_r in E. apply (f_equal parseNat) in E.
  rewrite !parseNat_itoa in E by lia. injection E as E. lia.
Qed.

Section Facts.
Variable ST : Type.
Variable W : world ST.
Notation interpol := (w_interpol W).
Notation ctrl := (w_ctrl W).
Notation parse := (w_parse W).
Notation quote := (w_quote W).
Notation plain := (plainDoc ordinaryKey interpol).
Notation text := (DocSpec.text interpol parse quote).
Variables D D' : node.
Hypothesis PD' : plain D'.
Hypothesis FD' : fitsN D'.
Variable stubs : list node.
Notation docS := (DocSpec.docS interpol parse quote ctrl stubs).
Variable rank : list string -> nat.
Variable good : list string -> expr -> Prop.
Notation ap := (FlowDoc.ap interpol ctrl parse quote stubs rank good).
Notation apM := (FlowDoc.apM interpol ctrl parse quote stubs rank good).
Notation apL := (FlowDoc.apL interpol ctrl parse quote stubs rank good).
Notation encl := (FlowDoc.encl interpol ctrl parse quote stubs D D' rank good).
Notation lookup := (PropRef.lookup ST W true false).
Notation complete := (PropRef.complete ST W).
Notation settled := (PropRef.settled ctrl).
Notation leads := (DocSpec.leads text D).

(** ** the positions are unique *)
Inductive keyed : node -> Prop :=
| keyed_node n : (forall m, val n = VMap m -> NoDup (map fst m) /\ Forall (fun kv => keyed (snd kv)) m) ->
    (forall l, val n = VList l -> Forall keyed l) -> keyed n.
Lemma plain_keyed : forall n, plain n -> keyed n.
Proof.
  induction n as [v a s t r IH] using node_ind'. intro P. constructor; cbn [val].
  - intros m ->. destruct (plain_map _ _ _ m P eq_refl) as (So & _ & Pm). split; [apply msorted_NoDup, So|].
    cbn in IH. rewrite Forall_forall in *. intros kv I. apply IH; [exact I|exact (Pm kv I)].
  - intros l ->. pose proof (plain_list _ _ _ l P eq_refl) as Pl. cbn in IH. rewrite Forall_forall in *. auto.
Qed.
Lemma doc_keyed : (forall p d d', docS p d d' -> keyed d) /\ (forall p m m', DocSpec.docSM interpol parse quote ctrl stubs p m m' -> Forall (fun kv => keyed (snd kv)) m) /\
  (forall p i l l', DocSpec.docSL interpol parse quote ctrl stubs p i l l' -> Forall keyed l).
Proof.
  apply docS_mut.
  - intros p d d' P _ _ _. now apply plain_keyed.
  - intros p d d' e (t & s & sub & -> & _). constructor; discriminate.
  - intros p m m' s d' _ So _ _ IH. constructor; [|discriminate]. cbn. intros m0 E. injection E as <-. split; [apply msorted_NoDup, So|exact IH].
  - intros p l l' s d' _ _ _ _ IH. constructor; [discriminate|]. cbn. intros l0 E. now injection E as <-.
  - constructor.
  - intros. now constructor.
  - constructor.
  - intros. now constructor.
Qed.
Lemma part_fun : forall n p x, part n p x -> keyed n -> forall y, part n p y -> y = x.
Proof.
  induction 1 as [n|n m k c p d V I A IH|n l i c p d V I A IH]; intros K y H.
  - inversion H; reflexivity.
  - destruct K as [n KM KL]. destruct (KM m V) as [ND KF]. inversion H as [|n1 m1 k1 c1 p1 d1 V1 I1 A1|n1 l1 i1 c1 p1 d1 V1 I1 A1]; subst; [|congruence].
    rewrite V in V1. injection V1 as <-. apply IH.
    + rewrite Forall_forall in KF. exact (KF _ I).
    + apply (In_mget k _ m ND) in I. apply (In_mget k _ m ND) in I1. congruence.
  - destruct K as [n KM KL]. pose proof (KL l V) as KF. remember (idx (Z.of_nat i) :: p) as pp eqn:Ep.
    destruct H as [n1|n1 m1 k1 c1 p1 d1 V1 I1 A1|n1 l1 i1 c1 p1 d1 V1 I1 A1]; [discriminate|congruence|].
    rewrite V in V1. injection V1 as <-. injection Ep as Ep ->.
    assert (i1 = i) by (apply idx_nat; unfold idx; now rewrite Ep). subst i1.
    apply IH; [|congruence]. rewrite Forall_forall in KF. apply nth_error_In in I. exact (KF _ I).
Qed.
Hypothesis KD : keyed D.
Lemma part_D : forall p x y, part D p x -> part D p y -> y = x.
Proof. intros p x y H1 H2. eapply part_fun; [exact H1|exact KD|exact H2]. Qed.
Lemma part_D' : forall p x y, part D' p x -> part D' p y -> y = x.
Proof. intros p x y H1 H2. eapply part_fun; [exact H1|exact (plain_keyed _ PD')|exact H2]. Qed.

(** ** the scopes *)
Lemma encl_nearest : forall j p ss, encl j p ss -> forall q name, enclosing D p q name ->
  exists pre sc post m m' mn d d', ss = pre ++ sc :: post /\ Forall (PropInfo.silent name) pre /\ sc_local sc = Some mn /\ apM j q m m' mn /\
    part D q d /\ part D' q d' /\ val d = VMap m /\ val d' = VMap m' /\ In name (map fst m).
Proof.
  intros j p ss E. induction E as [|p k m m' mn d d' sc ss E IH AD AD' V V' A SL|p i l d ss E IH AD V]; intros q name EN.
  - destruct EN as [(k & r & d & m & E & _) _]. destruct q; discriminate.
  - destruct (in_dec string_dec name (map fst m)) as [I|NI].
    + destruct EN as [(k' & r & dq & mq & Eq & AQ & VQ & IQ) INN].
      assert (q = p).
      { destruct (snoc_split _ _ _ _ _ _ Eq) as [[-> _]|(r' & ->)]; [reflexivity|]. exfalso.
        apply (INN (q ++ k' :: r') k [] d m eq_refl); try assumption. rewrite app_length. cbn. lia. }
      subst q. exists [], sc, ss, m, m', mn, d, d'. repeat split; try assumption. constructor.
    + assert (EN' : enclosing D p q name).
      { destruct EN as [(k' & r & dq & mq & Eq & AQ & VQ & IQ) INN]. destruct (snoc_split _ _ _ _ _ _ Eq) as [[-> _]|(r' & Er)].
        - exfalso. rewrite (part_D _ _ _ AD AQ) in VQ. rewrite V in VQ. injection VQ as <-. contradiction.
        - split; [exists k', r', dq, mq; auto|]. intros q' k0 r0 d0 m0 E0 L0 P0 V0. apply (INN q' k0 (r0 ++ [k]) d0 m0); try assumption.
          now rewrite E0, <- app_assoc. }
      destruct (IH q name EN') as (pre & sc0 & post & H). exists (sc :: pre), sc0, post. destruct H as (m0 & m0' & mn0 & d0 & d0' & -> & F0 & H).
      exists m0, m0', mn0, d0, d0'. split; [reflexivity|]. split; [|exact H]. constructor; [|exact F0].
      intros m1 S1. rewrite SL in S1. injection S1 as <-. apply mget_None. destruct (apM_keys _ _ _ _ _ _ _ _ _ _ _ _ A) as [KE _]. unfold mkeys. now rewrite KE.
  - apply IH. destruct EN as [(k' & r & dq & mq & Eq & AQ & VQ & IQ) INN]. destruct (snoc_split _ _ _ _ _ _ Eq) as [[-> _]|(r' & Er)].
    + exfalso. rewrite (part_D _ _ _ AD AQ) in VQ. congruence.
    + split; [exists k', r', dq, mq; auto|]. intros q' k0 r0 d0 m0 E0 L0 P0 V0. apply (INN q' k0 (r0 ++ [idx (Z.of_nat i)]) d0 m0); try assumption.
      now rewrite E0, <- app_assoc.
Qed.
Lemma encl_silent : forall j p ss, encl j p ss -> forall name, (forall q k r d m, p = q ++ k :: r -> part D q d -> val d = VMap m -> ~ In name (map fst m)) ->
  Forall (PropInfo.silent name) ss.
Proof.
  intros j p ss E. induction E as [|p k m m' mn d d' sc ss E IH AD AD' V V' A SL|p i l d ss E IH AD V]; intros name U.
  - constructor.
  - constructor.
    + intros m1 S1. rewrite SL in S1. injection S1 as <-. apply mget_None. destruct (apM_keys _ _ _ _ _ _ _ _ _ _ _ _ A) as [KE _]. unfold mkeys. rewrite KE.
      exact (U p k [] d m eq_refl AD V).
    + apply IH. intros q k0 r d0 m0 E0. apply (U q k0 (r ++ [k])). now rewrite E0, <- app_assoc.
  - apply IH. intros q k0 r d0 m0 E0. apply (U q k0 (r ++ [idx (Z.of_nat i)])). now rewrite E0, <- app_assoc.
Qed.
Lemma apM_first : forall j p m m' mn name, apM j p m m' mn -> In name (map fst m) ->
  exists n x x', mget name mn = Some n /\ In (name, x) m /\ In (name, x') m' /\ ap j (p ++ [name]) x x' n.
Proof.
  intros j p m m' mn name A. induction A as [|p k x m x' m' n mn B A IH]; intro I; [destruct I|].
  cbn [mget]. destruct (String.eqb_spec name k) as [->|NE].
  - exists n, x, x'. split; [reflexivity|]. split; [now left|]. split; [now left|exact B].
  - destruct I as [I|I]; [cbn in I; congruence|]. destruct (IH I) as (n1 & y & y' & H1 & H2 & H3 & H4). exists n1, y, y'.
    split; [exact H1|]. split; [now right|]. split; [now right|exact H4].
Qed.
Lemma apL_nth : forall j p i l l' ln k x', apL j p i l l' ln -> nth_error l' k = Some x' ->
  exists x n, nth_error l k = Some x /\ nth_error ln k = Some n /\ ap j (p ++ [idx (Z.of_nat (i + k))]) x x' n.
Proof.
  intros j p i l l' ln k x' A. revert k. induction A as [|p i x l y l' n ln B A IH]; intros [|k] H; try discriminate H.
  - injection H as <-. exists x, n. rewrite Nat.add_0_r. auto.
  - destruct (IH k H) as (z & n1 & H1 & H2 & H3). exists z, n1. replace (i + S k)%nat with (S i + k)%nat by lia. auto.
Qed.
Lemma apL_length : forall j p i l l' ln, apL j p i l l' ln -> length ln = length l' /\ length l = length l'.
Proof. intros j p i l l' ln A. induction A as [|p i x l y l' n ln B A [E1 E2]]; cbn; auto. Qed.
Lemma apL_nth' : forall j p i l l' ln k n, apL j p i l l' ln -> nth_error ln k = Some n ->
  exists x x', nth_error l k = Some x /\ nth_error l' k = Some x' /\ ap j (p ++ [idx (Z.of_nat (i + k))]) x x' n.
Proof.
  intros j p i l l' ln k n A. revert k. induction A as [|p i x l y l' n1 ln B A IH]; intros [|k] H; try discriminate H.
  - injection H as <-. exists x, y. rewrite Nat.add_0_r. auto.
  - destruct (IH k H) as (z & z' & H1 & H2 & H3). exists z, z'. replace (i + S k)%nat with (S i + k)%nat by lia. auto.
Qed.

(** ** complete and incomplete parts *)
Lemma plain_complete : forall n, plain n -> complete (val n).
Proof.
  induction n as [v a s t r IH] using node_ind'. intro P. unfold PropRef.complete. cbn [val].
  destruct v; try reflexivity.
  - cbn [isResolvedV]. pose proof (plain_str _ _ _ P eq_refl) as L. now rewrite (literal_enclosed _ _ L).
  - pose proof (plain_list _ _ _ l P eq_refl) as Pl. cbn [isResolvedV]. cbn in IH.
    induction l as [|x l IHl]; [reflexivity|]. inversion IH; subst. inversion Pl; subst.
    assert (E : isResolvedN ctrl false x = isResolvedV ctrl false (val x)) by (destruct x; reflexivity). rewrite E.
    match goal with H : plain x -> complete (val x), H' : plain x |- _ => specialize (H H'); unfold PropRef.complete in H; rewrite H end. cbn [andb].
    apply IHl; try assumption. inversion P; subst; [match goal with H : leaf _ _ |- _ => inversion H end|]. now apply PD_list.
  - destruct (plain_map _ _ _ m P eq_refl) as (So & Ko & Pm). cbn [isResolvedV].
    rewrite (quiet_resolved ctrl m) by (apply (K_quiet ordinaryKey ordinary_quiet), Ko). cbn [andb].
    cbn in IH. clear P So Ko. induction m as [|[k x] m IHm]; [reflexivity|]. inversion IH; subst. inversion Pm; subst. cbn [snd] in *.
    assert (E : isResolvedN ctrl false x = isResolvedV ctrl false (val x)) by (destruct x; reflexivity). rewrite E.
    match goal with H : plain x -> complete (val x), H' : plain x |- _ => specialize (H H'); unfold PropRef.complete in H; rewrite H end. cbn [andb].
    now apply IHm.
  - exfalso. eapply plain_noexpr; [exact P|reflexivity].
Qed.
(** there is an undecided expression at or below [t] *)
Definition open (j : nat) (t : list string) : Prop := exists q u e r, part D q u /\ text u e /\ q = t ++ r /\ (j <= S (rank q))%nat.
Lemma open_below : forall j t k, open j (t ++ [k]) -> open j t.
Proof. intros j t k (q & u & e & r & H1 & H2 & H3 & H4). exists q, u, e, (k :: r). rewrite <- app_assoc in H3. auto. Qed.
Lemma ap_state : forall j,
  (forall p d d' n, ap j p d d' n -> part D p d -> (1 <= j)%nat -> (plain n /\ sameDoc n d') \/ (~ complete (val n) /\ open j p)) /\
  (forall p m m' mn, apM j p m m' mn -> (forall k x, In (k, x) m -> part D (p ++ [k]) x) -> (1 <= j)%nat ->
     (Forall (fun kv => plain (snd kv)) mn /\ Forall2 (fun x y => fst y = fst x /\ sameDoc (snd x) (snd y)) mn m') \/
     (exists k n, In (k, n) mn /\ ~ complete (val n) /\ open j p)) /\
  (forall p i l l' ln, apL j p i l l' ln -> (forall k x, nth_error l k = Some x -> part D (p ++ [idx (Z.of_nat (i + k))]) x) -> (1 <= j)%nat ->
     (Forall plain ln /\ map data ln = map data l') \/ (exists n, In n ln /\ ~ complete (val n) /\ open j p)).
Proof.
  intro j. apply ap_mut.
  - intros p d d' J P Fi Ow X _ J'. lia.
  - intros p d d' n P Ow Pn Sd C _ _. auto.
  - intros p d d' e TX J _ J'. lia.
  - intros p d d' e x a s TX GX PA RK AD J. right. split; [discriminate|]. exists p, d, e, []. rewrite app_nil_r. repeat split; try assumption. lia.
  - intros p d d' e n TX P Sd C _ _. auto.
  - intros p m m' mn s d' V So Ko A IH AD J.
    destruct (IH (fun k x I => part_field _ _ _ m k x AD eq_refl I) J) as [[P Sd]|(k & n & I & NC & O)]; destruct (apM_keys _ _ _ _ _ _ _ _ _ _ _ _ A) as [KE _].
    + left. split.
      * apply PD_map; [| |exact P].
        -- clear - So KE. revert mn KE. induction m as [|[k x] m IHm]; intros [|[k' y] mn] KE; try discriminate KE; [exact Logic.I|].
           cbn in KE. injection KE as -> KE. destruct So as [So1 So2]. split; [rewrite KE; exact So1|now apply IHm].
        -- apply (Forall_map fst). rewrite KE. apply Forall_map. exact Ko.
      * eapply PropFlow.data_map; [reflexivity|exact V|exact Sd].
    + right. split; [|exact O]. cbn [val]. intro C. apply NC. eapply PropRef.complete_field; [exact C|]. apply In_mget; [|exact I].
      unfold mkeys. rewrite KE. apply msorted_NoDup, So.
  - intros p l l' ln a s d' V LA St G A IH AD J.
    destruct (IH (fun k x I => part_elem _ _ _ l k x AD eq_refl I) J) as [[P Sd]|(n & I & NC & O)].
    + left. split; [apply PD_list; assumption|]. destruct d' as [v' a' s' t' r']. cbn [val] in V. subst v'. unfold sameDoc. cbn [data]. now rewrite Sd.
    + right. split; [|exact O]. cbn [val]. intro C. apply NC. eapply PropRef.complete_child; [exact C|exact I].
  - intros p _ _. left. split; constructor.
  - intros p k x m x' m' n mn _ IH1 _ IH2 HD J. destruct (IH1 (HD k x (or_introl eq_refl)) J) as [[P1 S1]|[NC O]].
    + destruct (IH2 (fun k0 y I => HD k0 y (or_intror I)) J) as [[P2 S2]|(k0 & n0 & I & NC & O)].
      * left. split; constructor; cbn; auto.
      * right. exists k0, n0. split; [now right|auto].
    + right. exists k, n. split; [now left|]. split; [exact NC|]. now apply open_below in O.
  - intros p i _ _. left. split; constructor.
  - intros p i x l x' l' n ln _ IH1 _ IH2 HD J.
    assert (H0 := HD 0%nat x eq_refl). rewrite Nat.add_0_r in H0.
    assert (H1 : forall k y, nth_error l k = Some y -> part D (p ++ [idx (Z.of_nat (S i + k))]) y)
      by (intros k y I; replace (S i + k)%nat with (i + S k)%nat by lia; now apply HD).
    destruct (IH1 H0 J) as [[P1 S1]|[NC O]].
    + destruct (IH2 H1 J) as [[P2 S2]|(n0 & I & NC & O)].
      * left. split; [now constructor|]. cbn [map]. now rewrite S1, S2.
      * right. exists n0. split; [now right|auto].
    + right. exists n. split; [now left|]. split; [exact NC|]. now apply open_below in O.
Qed.
Lemma ap_settled : forall j p d d' n, ap j p d d' n -> (exists x, val n = VExpr x) \/ settled (val n).
Proof.
  intros j p d d' n A.
  destruct A as [p d d' _ P _ _ _|p d d' n _ _ P _ _|p d d' e TX _|p d d' e x a s TX _ PA _|p d d' e n TX P _ _|p m m' mn0 s d' _ _ Ko A|p l0 l' ln a s d' _ LA _ _ A].
  - right. apply PropRef.complete_settled, plain_complete, P.
  - right. apply PropRef.complete_settled, plain_complete, P.
  - right. destruct TX as (t & s & sub & -> & _). exact Logic.I.
  - left. exists x. reflexivity.
  - right. apply PropRef.complete_settled, plain_complete, P.
  - right. apply settledM_spec, quiet_resolved. eapply keys_quiet; [exact Ko|]. apply (apM_keys _ _ _ _ _ _ _ _ _ _ _ _ A).
  - right. apply settledL_spec. unfold listResolved. apply forallb_forall. rewrite <- Forall_forall.
    eapply apL_each; [exact A|]. intros q x x' n B. now rewrite (proj1 (ap_entry _ ctrl stdReg _ _ _ _ _ _ _ _ _ _ B)).
Qed.

(** ** the steps *)
Lemma step_index : forall n ln st i x, val n = VList ln -> (Z.of_nat (length ln) <= max64)%Z -> index_step st (Z.of_nat i) -> nth_error ln i = Some x ->
  nextStep true ctrl st n = FOk x.
Proof.
  intros n ln st i x V L IS H. unfold nextStep. rewrite V. cbn [orb]. unfold stepList.
  assert (Li : (i < length ln)%nat) by (apply nth_error_Some; congruence).
  assert (I6 : in64 (Z.of_nat i)) by (unfold in64, min64 in *; split; [assert (0 <= max64)%Z by (unfold max64; lia); lia|lia]).
  rewrite (proj2 (stepIndex_some st (Z.of_nat i)) (conj IS I6)).
  destruct (Z.ltb_spec (Z.of_nat i) 0); [lia|]. cbv iota. destruct (Z.leb_spec (Z.of_nat (length ln)) (Z.of_nat i)); [lia|].
  destruct (Z.ltb_spec (Z.of_nat i) 0); [lia|]. rewrite Nat2Z.id, H. reflexivity.
Qed.
Lemma keyed_first : forall ln k v i x, nth_error ln i = Some x -> keyField true ctrl k x = Some v ->
  (forall m z, (m < i)%nat -> nth_error ln m = Some z -> keyField true ctrl k z <> Some v) -> findKeyed true ctrl ln k v = FOk x.
Proof.
  induction ln as [|y ln IH]; intros k v [|i] x H K F; try discriminate H; cbn [findKeyed].
  - injection H as ->. rewrite K, String.eqb_refl. reflexivity.
  - assert (E : findKeyed true ctrl ln k v = FOk x) by (apply (IH k v i); [exact H|exact K|intros m z L1 L2; apply (F (S m) z); [lia|exact L2]]).
    destruct (keyField true ctrl k y) as [w|] eqn:Y; [|exact E]. destruct (String.eqb_spec w v) as [->|]; [|exact E].
    exfalso. apply (F 0%nat y); [lia|reflexivity|exact Y].
Qed.
Lemma step_name : forall n ln st i x, val n = VList ln -> a_keyName (ann n) = "" -> (forall z, ~ index_step st z) -> (forall a b, st <> (a +++ String ":" b)%string) ->
  nth_error ln i = Some x -> keyField true ctrl "name" x = Some st ->
  (forall m z, (m < i)%nat -> nth_error ln m = Some z -> keyField true ctrl "name" z <> Some st) -> nextStep true ctrl st n = FOk x.
Proof.
  intros n ln st i x V KN NI NC H K F. unfold nextStep. rewrite V. cbn [orb]. unfold stepList.
  rewrite (proj2 (stepIndex_none st) NI), KN.
  assert (E : stepKey "" st = ("name", st)) by (apply addresses_spec; right; split; [intros a b _ _; apply NC|split; reflexivity]).
  rewrite E. eapply keyed_first; eassumption.
Qed.
Lemma keyField_named : forall n st, plain n -> (keyField true ctrl "name" n = Some st <-> named n st).
Proof.
  intros n st P. unfold keyField, named. split.
  - destruct (val n) eqn:V; try discriminate. cbn [orb]. destruct (mget "name" m) as [c|] eqn:G; [|discriminate]. destruct (val c) eqn:Vc; try discriminate.
    intro E. injection E as ->. exists m, c. split; [reflexivity|]. split; [apply mget_In, G|exact Vc].
  - intros (m & c & V & I & Vc). rewrite V. cbn [orb]. destruct (plain_map _ _ _ _ P V) as (So & _ & _). rewrite (In_mget "name" c m); [|apply msorted_NoDup, So|exact I].
    now rewrite Vc.
Qed.
(** ** documents with the same data *)
Lemma same_map : forall n m n', val n' = VMap m -> sameDoc n n' -> exists m0, val n = VMap m0 /\
  Forall2 (fun x y => fst x = fst y /\ sameDoc (snd x) (snd y)) m0 m.
Proof.
  intros [v a s t r] m [v' a' s' t' r'] V Sd. cbn [val] in *. subst v'. unfold sameDoc in Sd. cbn [data] in Sd. injection Sd as Sd.
  destruct v; try discriminate Sd. injection Sd as Sd. exists m0. split; [reflexivity|]. clear -Sd. revert m Sd.
  induction m0 as [|[k x] m0 IH]; intros [|[k' x'] m] Sd; try discriminate Sd; [constructor|]. cbn in Sd. injection Sd as -> E Sd. constructor; [split; [reflexivity|exact E]|auto].
Qed.
Lemma same_list : forall n l n', val n' = VList l -> sameDoc n n' -> exists l0, val n = VList l0 /\ map data l0 = map data l.
Proof.
  intros [v a s t r] l [v' a' s' t' r'] V Sd. cbn [val] in *. subst v'. unfold sameDoc in Sd. cbn [data] in Sd. injection Sd as Sd.
  destruct v; try discriminate Sd. injection Sd as Sd. eauto.
Qed.
Lemma same_str : forall n n' t, sameDoc n n' -> (val n = VStr t <-> val n' = VStr t).
Proof.
  intros [v a s tt r] [v' a' s' t' r'] t Sd. unfold sameDoc in Sd. cbn [data val] in *. injection Sd as Sd.
  split; intros ->; [destruct v'|destruct v]; try discriminate Sd; congruence.
Qed.
Lemma same_get : forall (m0 m : smap node) k x, Forall2 (fun x y => fst x = fst y /\ sameDoc (snd x) (snd y)) m0 m -> mget k m = Some x ->
  exists x0, mget k m0 = Some x0 /\ sameDoc x0 x.
Proof.
  intros m0 m k x F. induction F as [|[k1 y] [k2 y'] m0 m [E S1] F IH]; intro H; [discriminate|]. cbn in E, S1. subst k2. cbn [mget] in *.
  destruct (String.eqb k k1); [|auto]. injection H as <-. eauto.
Qed.
Lemma same_nth : forall (l0 l : list node) i x, map data l0 = map data l -> nth_error l i = Some x -> exists x0, nth_error l0 i = Some x0 /\ sameDoc x0 x.
Proof.
  intros l0 l i x E H. assert (G : nth_error (map data l0) i = Some (data x)) by (rewrite E; now apply map_nth_error).
  destruct (nth_error l0 i) as [x0|] eqn:N; [|exfalso; apply nth_error_None in N; assert (Hi := proj2 (nth_error_None (map data l0) i)); rewrite map_length in Hi; rewrite (Hi N) in G; discriminate].
  exists x0. split; [reflexivity|]. rewrite (map_nth_error data i l0 N) in G. injection G as G. exact G.
Qed.
Lemma same_keyField : forall n n' k, sameDoc n n' -> keyField true ctrl k n = keyField true ctrl k n'.
Proof.
  intros n n' k Sd. unfold keyField. destruct (val n') eqn:V.
  all: try (destruct n as [v], n' as [v']; cbn [val] in *; subst v'; unfold sameDoc in Sd; cbn [data] in Sd; injection Sd as Sd; destruct v; try discriminate Sd; reflexivity).
  destruct (same_map _ _ _ V Sd) as (m0 & -> & F). cbn [orb]. clear V Sd. induction F as [|[k1 y] [k2 y'] m0 m [E S1] F IH]; [reflexivity|]. cbn in E, S1. subst k2. cbn [mget].
  destruct (String.eqb k k1); [|exact IH]. destruct (val y') eqn:V'; destruct (val y) eqn:V; try reflexivity.
  all: try (apply (same_str _ _ _ S1) in V; congruence). all: try (apply (same_str _ _ _ S1) in V'; congruence).
Qed.
(** the names of elements in progress *)
Lemma ap_keyField : forall j p x x' n, ap j p x x' n -> (1 <= j)%nat -> steady interpol parse quote x ->
  keyField true ctrl "name" n = keyField true ctrl "name" x' \/ (exists e, text x e) /\ keyField true ctrl "name" n = None.
Proof.
  intros j p x x' n A J St.
  destruct A as [p d d' J1 P _ _ _|p d d' n _ _ P Sd _|p d d' e TX J0|p d d' e x a s TX _ PA _|p d d' e n TX P Sd _|p m m' mn0 s d' V _ Ko A|p l0 l' ln a s d' V LA _ _ A].
  - lia.
  - left. now apply same_keyField.
  - lia.
  - right. split; [eauto|reflexivity].
  - left. now apply same_keyField.
  - left. unfold keyField. rewrite V. cbn [val orb]. destruct (mget "name" m') as [c'|] eqn:G.
    + assert (IN : In "name" (map fst m)). { destruct (apM_keys _ _ _ _ _ _ _ _ _ _ _ _ A) as [_ <-]. change (In (fst ("name", c')) (map fst m')). apply in_map, mget_In, G. }
      assert (SP : exists n0 y, mget "name" mn0 = Some n0 /\ In ("name", y) m /\ ap j (p ++ ["name"]) y c' n0).
      { clear -A G. induction A as [|p k x m x' m' n mn B A IH]; [discriminate|]. cbn [mget] in *. destruct (String.eqb_spec "name" k) as [<-|_].
        - injection G as <-. exists n, x. split; [reflexivity|]. split; [now left|exact B].
        - destruct (IH G) as (n0 & y & H1 & H2 & H3). exists n0, y. split; [exact H1|]. split; [now right|exact H3]. }
      destruct SP as (nn & y & -> & IY & B). pose proof (fun e => St m y e eq_refl IY) as NT. clear -B NT J.
      destruct B as [p1 d d' J1 P _ _ _|p1 d d' n _ _ P Sd _|p1 d d' e TX J0|p1 d d' e x a s1 TX _ PA _|p1 d d' e n TX P Sd _|p1 m1 m1' mn1 s1 d' V _ Ko A|p1 l1 l1' ln1 a s1 d' V LA _ _ A];
        try (exfalso; eapply NT; eassumption).
      * lia.
      * destruct (val n) eqn:V; destruct (val d') eqn:V'; try reflexivity;
          try (apply (same_str _ _ _ Sd) in V; congruence); try (apply (same_str _ _ _ Sd) in V'; congruence).
      * rewrite V. reflexivity.
      * rewrite V. reflexivity.
    + destruct (mget "name" mn0) as [c|] eqn:G0; [|reflexivity]. exfalso. apply mget_In in G0. apply (in_map fst) in G0. cbn in G0.
      destruct (apM_keys _ _ _ _ _ _ _ _ _ _ _ _ A) as [KE KE']. rewrite KE, <- KE' in G0. apply mget_None in G. contradiction.
  - left. unfold keyField. rewrite V. reflexivity.
Qed.
(** ** walking through the document in progress *)
Definition lift (pre : list string) (o : PropRef.outcome) : PropRef.outcome :=
  match o with PropRef.OMissing q => PropRef.OMissing (pre ++ q) | _ => o end.
Definition quiet (x : node) : Prop := a_failed (ann x) || a_error (ann x) = false.
(** a node that stands for the part [c] of the solution at [t] *)
Definition stands (j : nat) (t : list string) (c n : node) : Prop :=
  (plain n /\ sameDoc n c) \/ (exists d, ap j t d c n /\ part D t d).
(** the walk stops at an expression on the way to [t] *)
Definition barred (j : nat) (t : list string) : Prop := exists q u e r, part D q u /\ text u e /\ t = q ++ r /\ (j <= S (rank q))%nat.
Inductive view (j : nat) (t : list string) (c n : node) : Prop :=
| vw_plain : plain n -> sameDoc n c -> settled (val n) -> view j t c n
| vw_pend x : val n = VExpr x -> quiet n -> barred j t -> view j t c n
| vw_map m m' mn : val n = VMap mn -> val c = VMap m' -> settled (val n) -> apM j t m m' mn -> (forall k x, In (k, x) m -> part D (t ++ [k]) x) -> view j t c n
| vw_list l l' ln : val n = VList ln -> val c = VList l' -> settled (val n) -> apL j t 0 l l' ln -> Forall (steady interpol parse quote) l -> a_keyName (ann n) = "" ->
    (forall k x, nth_error l k = Some x -> part D (t ++ [idx (Z.of_nat k)]) x) -> view j t c n.
Lemma pend_quiet1 : forall v a s, pendAnn a -> quiet (mkNode v a s None None).
Proof. intros v a s [->|(i & ->)]; reflexivity. Qed.
Lemma stands_view : forall j t c n, stands j t c n -> (1 <= j)%nat -> view j t c n.
Proof.
  intros j t c n [[P S]|(d & A & AD)] J.
  - apply vw_plain; try assumption. apply PropRef.complete_settled, plain_complete, P.
  - pose proof (ap_settled _ _ _ _ _ A) as ST0.
    destruct A as [p d d' J1 P _ _ _|p d d' n _ _ P Sd _|p d d' e TX J0|p d d' e x a s TX _ PA RK|p d d' e n TX P Sd _|p m m' mn0 s d' V _ Ko A|p l0 l' ln a s d' V LA St _ A].
    + lia.
    + apply vw_plain; try assumption. apply PropRef.complete_settled, plain_complete, P.
    + lia.
    + apply (vw_pend j p d' _ x); [reflexivity|now apply pend_quiet1|]. exists p, d, e, []. rewrite app_nil_r. split; [assumption|]. split; [assumption|]. split; [reflexivity|lia].
    + apply vw_plain; try assumption. apply PropRef.complete_settled, plain_complete, P.
    + destruct ST0 as [(x & E)|ST0]; [discriminate|]. apply (vw_map j p d' _ m m' mn0); try assumption; [reflexivity|].
      intros k x I. eapply part_field; [exact AD|reflexivity|exact I].
    + destruct ST0 as [(x & E)|ST0]; [discriminate|]. apply (vw_list j p d' _ l0 l' ln); try assumption; [reflexivity|destruct LA as [->| ->]; reflexivity|].
      intros k x I. eapply part_elem; [exact AD|reflexivity|exact I].
Qed.
Lemma barred_on : forall j t r, barred j t -> barred j (t ++ r).
Proof. intros j t r (q & u & e & r' & H1 & H2 & H3 & H4). exists q, u, e, (r' ++ r). rewrite H3, <- app_assoc. auto. Qed.
Lemma pend_lookup : forall n x p, val n = VExpr x -> lookup n p (PropRef.OPending n).
Proof.
  intros n x p V. apply (PropRef.L_blocked ST W true false n p [] p n eq_refl). split; [reflexivity|]. split; [now rewrite V|].
  intros a c b E. destruct a; discriminate.
Qed.
Lemma plain_list_key : forall n l, plain n -> val n = VList l -> a_keyName (ann n) = "".
Proof. intros n l P V. destruct P as [v s L|l0 a s [->| ->] P|m s]; reflexivity. Qed.
Lemma fits_len : forall n l, fitsN n -> val n = VList l -> (Z.of_nat (length l) <= max64)%Z /\ Forall fitsN l.
Proof. intros [v a s t r] l F V. cbn [val] in V. subst v. now apply fits_list in F. Qed.
Lemma fits_fields : forall n m, fitsN n -> val n = VMap m -> Forall (fun kv => fitsN (snd kv)) m.
Proof. intros [v a s t r] m F V. cbn [val] in V. subst v. now apply fits_map in F. Qed.
(** one step along the path *)
Lemma walk_step : forall j t c n st k x, stands j t c n -> (1 <= j)%nat -> plain c -> fitsN c ->
  leads t c [st] [k] x -> (exists n1, nextStep true ctrl st n = FOk n1 /\ settled (val n) /\ stands j (t ++ [k]) x n1) \/ (exists y, val n = VExpr y /\ quiet n /\ barred j t).
Proof.
  intros j t c n st k x S J PC FC L. destruct (stands_view _ _ _ _ S J) as [P Sd SE|y V Q B|m m' mn V V' SE A HD|l l' ln V V' SE A StL KN HD].
  2: { right. eauto. }
  - left. inversion L as [|t0 c0 m k0 x0 path r y Vc I L1|t0 c0 l i st0 x0 path r y Vc IS I L1|t0 c0 l i st0 x0 path r y Vc NI NC I NM FI NT L1]; subst; inversion L1; subst.
    + destruct (same_map _ _ _ Vc Sd) as (m0 & V & F). destruct (plain_map _ _ _ _ PC Vc) as (So & _ & _).
      destruct (same_get _ _ k x F (In_mget k x m (msorted_NoDup _ So) I)) as (x0 & G & Sx). exists x0. unfold nextStep. rewrite V. cbn [orb]. rewrite G.
      split; [reflexivity|]. split; [now rewrite <- V|]. left. split; [|exact Sx]. destruct (plain_map _ _ _ _ P V) as (_ & _ & PM). rewrite Forall_forall in PM. apply mget_In in G. exact (PM _ G).
    + destruct (same_list _ _ _ Vc Sd) as (l0 & V & F). destruct (same_nth _ _ _ _ F I) as (x0 & G & Sx). exists x0. split; [|split; [exact SE|left; split; [|exact Sx]]].
      * eapply step_index; [exact V| |exact IS|exact G]. rewrite <- (map_length data), F, map_length. exact (proj1 (fits_len _ _ FC Vc)).
      * pose proof (plain_list _ _ _ _ P V) as PL. rewrite Forall_forall in PL. apply nth_error_In in G. auto.
    + destruct (same_list _ _ _ Vc Sd) as (l0 & V & F). destruct (same_nth _ _ _ _ F I) as (x0 & G & Sx). exists x0. pose proof (plain_list _ _ _ _ P V) as PL. pose proof (plain_list _ _ _ _ PC Vc) as PCL. rewrite Forall_forall in PL, PCL.
      assert (PX : plain x) by (apply PCL; eapply nth_error_In; exact I).
      split; [|split; [exact SE|left; split; [|exact Sx]]].
      * eapply step_name; [exact V|exact (plain_list_key _ _ P V)|exact NI|exact NC|exact G| |].
        -- rewrite (same_keyField _ _ "name" Sx). now apply keyField_named.
        -- intros a z La Hz K. destruct (nth_error l a) as [z'|] eqn:Hz'.
           ++ destruct (same_nth _ _ _ _ F Hz') as (z0 & G0 & S0). rewrite Hz in G0. injection G0 as <-. rewrite (same_keyField _ _ "name" S0) in K.
              apply (FI a z' La Hz'). apply keyField_named; [|exact K]. apply PCL. eapply nth_error_In. exact Hz'.
           ++ apply nth_error_None in Hz'. assert (i < length l)%nat by (apply nth_error_Some; congruence). lia.
      * apply PL. eapply nth_error_In. exact G.
  - left. inversion L as [|t0 c0 m1 k0 x0 path r y Vc I L1|t0 c0 l i st0 x0 path r y Vc IS I L1|t0 c0 l i st0 x0 path r y Vc NI NC I NM FI NT L1]; subst; inversion L1; subst; try congruence.
    rewrite V' in Vc. injection Vc as <-. destruct (plain_map _ _ _ _ PC V') as (So & _ & _). destruct (apM_keys _ _ _ _ _ _ _ _ _ _ _ _ A) as [KE KE'].
    destruct (apM_first _ _ _ _ _ k A) as (n1 & y & y' & G & I1 & I2 & B); [rewrite <- KE'; exact (in_map fst _ _ I)|].
    apply (In_mget k _ m' (msorted_NoDup _ So)) in I. apply (In_mget k _ m' (msorted_NoDup _ So)) in I2. rewrite I in I2. injection I2 as <-.
    exists n1. unfold nextStep. rewrite V. cbn [orb]. rewrite G. split; [reflexivity|]. split; [now rewrite <- V|]. right. exists y. split; [exact B|exact (HD _ _ I1)].
  - left. inversion L as [|t0 c0 m1 k0 x0 path r y Vc I L1|t0 c0 l1 i st0 x0 path r y Vc IS I L1|t0 c0 l1 i st0 x0 path r y Vc NI NC I NM FI NT L1]; subst; inversion L1; subst; try congruence;
      rewrite V' in Vc; injection Vc as <-; destruct (apL_nth _ _ _ _ _ _ _ _ A I) as (y & n1 & H1 & H2 & B); cbn [Nat.add] in B; destruct (apL_length _ _ _ _ _ _ A) as [LE _].
    + exists n1. split; [|split; [exact SE|right; exists y; split; [exact B|exact (HD _ _ H1)]]].
      eapply step_index; [exact V| |exact IS|exact H2]. rewrite LE. exact (proj1 (fits_len _ _ FC V')).
    + exists n1. split; [|split; [exact SE|right; exists y; split; [exact B|exact (HD _ _ H1)]]].
      pose proof (plain_list _ _ _ _ PC V') as PCL. rewrite Forall_forall in PCL, StL.
      eapply step_name; [exact V|exact KN|exact NI|exact NC|exact H2| |].
      * destruct (ap_keyField _ _ _ _ _ B J (StL _ (nth_error_In _ _ H1))) as [->|[(e & TX) _]].
        -- apply keyField_named; [|exact NM]. apply PCL. eapply nth_error_In. exact I.
        -- exfalso. exact (NT _ _ (HD _ _ H1) TX).
      * intros a z La Hz K. destruct (apL_nth' _ _ _ _ _ _ _ _ A Hz) as (w & w' & W1 & W2 & B'). cbn [Nat.add] in B'.
        destruct (ap_keyField _ _ _ _ _ B' J (StL _ (nth_error_In _ _ W1))) as [E|[_ E]]; rewrite E in K; [|discriminate].
        apply (FI a w' La W2). apply keyField_named; [|exact K]. apply PCL. eapply nth_error_In. exact W2.
Qed.
Lemma leads_head : forall t c st path r y, leads t c (st :: path) r y -> exists k r' x, r = k :: r' /\ leads t c [st] [k] x /\ leads (t ++ [k]) x path r' y /\
  (plain c -> plain x) /\ (fitsN c -> fitsN x).
Proof.
  intros t c st path r y L. inversion L as [|t0 c0 m k0 x0 path0 r0 y0 Vc I L1|t0 c0 l i st0 x0 path0 r0 y0 Vc IS I L1|t0 c0 l i st0 x0 path0 r0 y0 Vc NI NC I NM FI NT L1]; subst.
  - exists st, r0, x0. split; [reflexivity|]. split; [eapply leads_key; [exact Vc|exact I|constructor]|]. split; [exact L1|]. split; intro P.
    + destruct (plain_map _ _ _ _ P Vc) as (_ & _ & PM). rewrite Forall_forall in PM. exact (PM _ I).
    + pose proof (fits_fields _ _ P Vc) as PM. rewrite Forall_forall in PM. exact (PM _ I).
  - exists (idx (Z.of_nat i)), r0, x0. split; [reflexivity|]. split; [eapply leads_index; [exact Vc|exact IS|exact I|constructor]|]. split; [exact L1|]. apply nth_error_In in I. split; intro P.
    + pose proof (plain_list _ _ _ _ P Vc) as PM. rewrite Forall_forall in PM. auto.
    + destruct (fits_len _ _ P Vc) as [_ PM]. rewrite Forall_forall in PM. auto.
  - exists (idx (Z.of_nat i)), r0, x0. split; [reflexivity|]. split; [eapply leads_name; [exact Vc|exact NI|exact NC|exact I|exact NM|exact FI|exact NT|constructor]|]. split; [exact L1|]. apply nth_error_In in I. split; intro P.
    + pose proof (plain_list _ _ _ _ P Vc) as PM. rewrite Forall_forall in PM. auto.
    + destruct (fits_len _ _ P Vc) as [_ PM]. rewrite Forall_forall in PM. auto.
Qed.
Lemma walk_to : forall pre j t c' r c n, leads t c' pre r c -> plain c' -> fitsN c' -> stands j t c' n -> (1 <= j)%nat ->
  (exists n1, stands j (t ++ r) c n1 /\ plain c /\ fitsN c /\ forall post o, lookup n1 post o -> lookup n (pre ++ post) (lift pre o)) \/
  (barred j (t ++ r) /\ forall post, exists x, quiet x /\ lookup n (pre ++ post) (PropRef.OPending x)).
Proof.
  induction pre as [|st pre IH]; intros j t c' r c n L P Fi S J.
  - inversion L; subst. left. exists n. rewrite app_nil_r. split; [exact S|]. split; [exact P|]. split; [exact Fi|]. intros post o H. destruct o; exact H.
  - destruct (leads_head _ _ _ _ _ _ L) as (k & r' & x & -> & L1 & L2 & PX & FX).
    destruct (walk_step _ _ _ _ _ _ _ S J P Fi L1) as [(n1 & N & SE & S1)|(y & V & Q & B)].
    + destruct (IH j (t ++ [k]) x r' c n1 L2 (PX P) (FX Fi) S1 J) as [(n2 & S2 & P2 & F2 & LK)|[B LK]]; rewrite <- app_assoc in *; cbn [app] in *.
      * left. exists n2. split; [exact S2|]. split; [exact P2|]. split; [exact F2|]. intros post o H.
        apply (PropRef.lookup_cons ST W true false n st (pre ++ post) n1 _ N SE). exists (lift pre o). split; [now apply LK|]. destruct o; reflexivity.
      * right. split; [exact B|]. intro post. destruct (LK post) as (z & Q & H). exists z. split; [exact Q|].
        apply (PropRef.lookup_cons ST W true false n st (pre ++ post) n1 _ N SE). exists (PropRef.OPending z). split; [exact H|reflexivity].
    + right. split; [now apply barred_on|]. intro post. exists n. split; [exact Q|]. eapply pend_lookup. exact V.
Qed.
(** looking up an existing part of the solution *)
Lemma walk_found : forall path j t c' r c n, leads t c' path r c -> plain c' -> fitsN c' -> stands j t c' n -> (1 <= j)%nat ->
  (exists n1, plain n1 /\ sameDoc n1 c /\ lookup n path (PropRef.OFound n1)) \/
  ((barred j (t ++ r) \/ open j (t ++ r)) /\ exists x, quiet x /\ lookup n path (PropRef.OPending x)).
Proof.
  intros path j t c' r c n L P Fi S J. destruct (walk_to path j t c' r c n L P Fi S J) as [(n1 & S1 & P1 & F1 & LK)|[B LK]].
  2: { right. destruct (LK []) as (x & Q & H). rewrite app_nil_r in H. eauto. }
  assert (K : forall o, lookup n1 [] o -> lookup n path (lift path o)) by (intros o H; specialize (LK [] o H); now rewrite app_nil_r in LK).
  assert (PL : plain n1 -> sameDoc n1 c -> lookup n path (PropRef.OFound n1)).
  { intros PN SN. apply (K (PropRef.OFound n1)). assert (C : complete (val n1)) by (apply plain_complete, PN).
    apply PropRef.L_found; [apply PropRef.clear_nil, PropRef.complete_settled, C|reflexivity|now right]. }
  destruct S1 as [[PN SN]|(d & A & AD)].
  - left. exists n1. auto.
  - destruct (proj1 (ap_state j) _ _ _ _ A AD J) as [[PN SN]|[NC O]]; [left; exists n1; auto|]. right. split; [now right|].
    destruct (ap_settled _ _ _ _ _ A) as [(x & V)|SE].
    + exists n1. split; [|apply (K (PropRef.OPending n1)); eapply pend_lookup, V].
      destruct (stands_view _ _ _ _ (or_intror (ex_intro _ d (conj A AD))) J) as [P0 _ _|y _ Q _|m m' mn V0 _ _ _ _|l l' ln V0 _ _ _ _ _ _]; try congruence.
      exfalso. eapply plain_noexpr; [exact P0|exact V].
    + exists n1. split; [|apply (K (PropRef.OPending n1)), PropRef.L_incomplete; [apply PropRef.clear_nil, SE|reflexivity|reflexivity|exact NC]].
      destruct A as [p d d' J1 PP _ _ _|p d d' n1 _ _ PP Sd _|p d d' e TX J0|p d d' e x a s TX _ PA RK|p d d' e n1 TX PP Sd _|p m m' mn0 s d' V _ Ko A|p l0 l' ln a s d' V LA St _ A];
        try (exfalso; apply NC, plain_complete; assumption); try lia; try reflexivity; [now apply pend_quiet1|destruct LA as [->| ->]; reflexivity].
Qed.
(** looking up something that does not exist *)
Lemma walk_missing : forall pre st post j t c' r c m n, leads t c' pre r c -> val c = VMap m -> ~ In st (map fst m) -> plain c' -> fitsN c' -> stands j t c' n -> (1 <= j)%nat ->
  (exists p, lookup n (pre ++ st :: post) (PropRef.OMissing p)) \/ (barred j (t ++ r) /\ exists x, quiet x /\ lookup n (pre ++ st :: post) (PropRef.OPending x)).
Proof.
  intros pre st post j t c' r c m n L V NI P Fi S J. destruct (walk_to pre j t c' r c n L P Fi S J) as [(n1 & S1 & P1 & F1 & LK)|[B LK]].
  2: { right. auto. }
  assert (M : forall m1, val n1 = VMap m1 -> map fst m1 = map fst m -> settled (val n1) -> exists p, lookup n (pre ++ st :: post) (PropRef.OMissing p)).
  { intros m1 V1 KE SE. exists (pre ++ [st]). apply (LK (st :: post) (PropRef.OMissing [st])). apply (PropRef.L_missing ST W true false n1 (st :: post) [] st post eq_refl).
    - apply PropRef.clear_nil, SE.
    - cbn. unfold nextStep. rewrite V1. cbn [orb]. assert (mget st m1 = None) as ->; [|reflexivity]. apply mget_None. unfold mkeys. now rewrite KE. }
  destruct (stands_view _ _ _ _ S1 J) as [PN SN SE|y V1 Q B|m1 m1' mn V1 V1' SE A HD|l l' ln V1 V1' SE A StL KN HD].
  - left. destruct (same_map _ _ _ V SN) as (m0 & V0 & F). apply (M m0 V0); [|exact SE]. clear -F. induction F as [|[a x] [b y] m0 m [E _] F IH]; [reflexivity|]. cbn in *. congruence.
  - right. split; [exact B|]. exists n1. split; [exact Q|]. apply (LK (st :: post) (PropRef.OPending n1)). eapply pend_lookup, V1.
  - left. rewrite V in V1'. injection V1' as <-. apply (M mn V1); [|exact SE]. destruct (apM_keys _ _ _ _ _ _ _ _ _ _ _ _ A) as [-> ->]. reflexivity.
  - congruence.
Qed.
End Facts.
