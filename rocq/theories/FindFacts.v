(** Facts about path lookup (C09). *)
From Coq Require Import Lia DecimalString.
From Verif Require Import Core CoreFacts Str StrFacts DecSpec DeepEq Equiv EquivFacts Find.

(** ** Specification of one lookup step, by what a user sees *)

(** no unresolved merge in the map: no key starts a control (when controls are
    enabled), no merge key *)
Definition settledM (ctrl : bool) (m : smap node) : Prop :=
  ~ In "<<" (mkeys m) /\ ~ In MERGEKEY (mkeys m) /\
  (ctrl = true -> forall k r, In k (mkeys m) -> k <> ("<<" +++ r)%string).
(** no list element is a lone merge entry *)
Definition settledL (l : list node) : Prop :=
  forall n k v, In n l -> val n = VMap [(k, v)] -> k <> "<<" /\ k <> MERGEKEY.

(** "[i]" *)
Definition idx (i : Z) : string := ("[" +++ itoa i +++ "]")%string.

(** the element carries the text [v] in its field [k] *)
Definition carries (raw ctrl : bool) (k v : string) (n : node) : Prop :=
  exists m c, val n = VMap m /\ (raw = true \/ settledM ctrl m) /\ In (k, c) m /\ val c = VStr v.

(** how a non-index step addresses list elements: "field:text", or just the text
    with the key field of the list (default "name") *)
Definition addresses (keyName step field text : string) : Prop :=
  (field <> "" /\ (forall a b, field <> (a +++ String ":" b)%string) /\ step = (field +++ String ":" text)%string) \/
  ((forall a b, a <> "" -> (forall x y, a <> (x +++ String ":" y)%string) -> step <> (a +++ String ":" b)%string) /\
   text = step /\ field = (if String.eqb keyName "" then "name" else keyName)).

(** "[i]" with an integer literal *)
Definition index_step (s : string) (i : Z) : Prop :=
  exists d, s = ("[" +++ d +++ "]")%string /\ literal d i.

Inductive step1 (raw ctrl : bool) (n : node) (s : string) (c : node) : Prop :=
| S_key m : val n = VMap m -> (raw = true \/ settledM ctrl m) -> In (s, c) m -> step1 raw ctrl n s c
| S_index l i : val n = VList l -> (raw = true \/ settledL l) -> index_step s i ->
    0 <= i -> nth_error l (Z.to_nat i) = Some c -> step1 raw ctrl n s c
| S_back l i : val n = VList l -> (raw = true \/ settledL l) -> index_step s (- i) ->
    0 < i <= Z.of_nat (length l) -> nth_error l (length l - Z.to_nat i) = Some c -> step1 raw ctrl n s c
| S_name l l1 l2 k v : val n = VList l -> (raw = true \/ settledL l) -> (forall i, ~ index_step s i) ->
    addresses (a_keyName (ann n)) s k v -> l = l1 ++ c :: l2 ->
    carries raw ctrl k v c -> (forall x, In x l1 -> ~ carries raw ctrl k v x) -> step1 raw ctrl n s c.

Inductive reaches (raw ctrl : bool) : node -> list string -> node -> Prop :=
| R_nil n : reaches raw ctrl n [] n
| R_cons n s c p d : step1 raw ctrl n s c -> reaches raw ctrl c p d -> reaches raw ctrl n (s :: p) d.

(** ** Lemmas *)

Lemma settledM_spec ctrl m : mapResolved ctrl m = true <-> settledM ctrl m.
Proof.
  unfold mapResolved, settledM. rewrite andb_true_iff, negb_true_iff.
  assert (E1 : (match mget "<<" m, mget MERGEKEY m with None, None => true | _, _ => false end) = true <->
               ~ In "<<" (mkeys m) /\ ~ In MERGEKEY (mkeys m)).
  { rewrite <- !mget_None. destruct (mget "<<" m), (mget MERGEKEY m); split; try discriminate; try tauto;
      intros [? ?]; discriminate. }
  rewrite E1. clear E1.
  assert (E2 : ctrl && existsb (fun p => hasPrefix (fst p) "<<") m = false <->
               (ctrl = true -> forall k r, In k (mkeys m) -> k <> ("<<" +++ r)%string)).
  { destruct ctrl; cbn [andb]; [|split; [discriminate|reflexivity]].
    rewrite <- not_true_iff_false, existsb_exists. split.
    - intros H _ k r Hk E. apply H. apply in_map_iff in Hk. destruct Hk as [p [Ep Hp]].
      exists p. split; [exact Hp|]. apply hasPrefix_spec. exists r. congruence.
    - intros H [p [Hp E]]. apply hasPrefix_spec in E. destruct E as [r E].
      apply (H eq_refl (fst p) r); [apply in_map, Hp|exact E]. }
  rewrite E2. tauto.
Qed.

Lemma settledL_spec l : listResolved l = true <-> settledL l.
Proof.
  unfold listResolved, settledL. rewrite forallb_forall. split.
  - intros H n k v Hin E. specialize (H n Hin). unfold entryMerge in H. rewrite E in H.
    destruct (String.eqb_spec k "<<"); [discriminate|]. destruct (String.eqb_spec k MERGEKEY); [discriminate|]. auto.
  - intros H n Hin. unfold entryMerge. destruct (val n) eqn:E; try reflexivity.
    destruct m as [|[k v] [|]]; try reflexivity. destruct (H n k v Hin E) as [H1 H2].
    destruct (String.eqb_spec k "<<"); [contradiction|]. destruct (String.eqb_spec k MERGEKEY); [contradiction|]. reflexivity.
Qed.

Lemma orb_settledM raw ctrl m : raw || mapResolved ctrl m = true <-> raw = true \/ settledM ctrl m.
Proof. rewrite orb_true_iff, settledM_spec. tauto. Qed.
Lemma orb_settledL raw l : raw || listResolved l = true <-> raw = true \/ settledL l.
Proof. rewrite orb_true_iff, settledL_spec. tauto. Qed.

(** canonical index texts are index steps *)
Lemma stepIndex_idx i : in64 i -> stepIndex (idx i) = Some (Some i).
Proof.
  intro Hi. unfold idx. cbn [String.append stepIndex].
  assert (Hs : hasSuffix (itoa i +++ "]") "]" = true) by (apply hasSuffix_spec; eauto).
  change (String.append "[" (itoa i +++ "]")) with (String "[" (itoa i +++ "]")%string). cbn [stepIndex].
  rewrite Hs, slength_app. cbn [String.length].
  replace (String.length (itoa i) + 1 - 1)%nat with (String.length (itoa i)) by lia.
  rewrite substring_app_l.
  destruct i as [|p|p].
  - reflexivity.
  - destruct (itoa_nonneg (Z.pos p) ltac:(lia)) as [u [Hu [E1 E2]]].
    assert (Hm : match itoa (Z.pos p) with String "-" p => option_map Z.opp (parseNat p) | _ => parseNat (itoa (Z.pos p)) end = Some (Z.pos p)).
    { rewrite <- (parseNat_itoa (Z.pos p)) at 1 by lia. rewrite E1.
      destruct (NilEmpty.string_of_uint u) as [|c r] eqn:E; [reflexivity|].
      destruct (unsigned_not_sign u c r E) as [H _].
      destruct c as [[] [] [] [] [] [] [] []]; try reflexivity. congruence. }
    rewrite Hm. apply in64b_spec in Hi. rewrite Hi. reflexivity.
  - rewrite itoa_neg. rewrite parseNat_itoa by lia. cbn [option_map].
    apply in64b_spec in Hi. change (- Z.pos p) with (Z.neg p). rewrite Hi. reflexivity.
Qed.

Lemma stepIndex_spec s :
  match stepIndex s with
  | Some (Some i) => index_step s i /\ in64 i
  | Some None => exists i, index_step s i /\ ~ in64 i
  | None => forall i, ~ index_step s i
  end.
Proof.
  unfold stepIndex, index_step. destruct s as [|c r].
  - intros i [d [E _]]. discriminate.
  - destruct (ascii_dec c "[") as [->|Hc].
    + destruct (hasSuffix r "]") eqn:Hs.
      * apply hasSuffix_spec in Hs. destruct Hs as [d ->].
        rewrite slength_app. cbn [String.length].
        replace (String.length d + 1 - 1)%nat with (String.length d) by lia. rewrite substring_app_l.
        destruct (match d with String "-" p => option_map Z.opp (parseNat p) | _ => parseNat d end) as [z|] eqn:E.
        -- apply parse_literal in E. destruct (in64b z) eqn:Hz.
           ++ split; [exists d; auto|apply in64b_spec, Hz].
           ++ exists z. split; [exists d; auto|]. intro X. apply in64b_spec in X. congruence.
        -- intros i [d' [E' H]]. cbn in E'. inversion E' as [E'']. apply sapp_inj_r in E''. subst d'.
           apply parse_literal in H. congruence.
      * intros i [d' [E' H]]. cbn in E'. inversion E' as [E'']. subst r.
        assert (X : hasSuffix (d' +++ "]") "]" = true) by (apply hasSuffix_spec; eauto). congruence.
    + fold (stepIndex (String c r)).
      assert (E : stepIndex (String c r) = None)
        by (unfold stepIndex; destruct c as [[] [] [] [] [] [] [] []]; try reflexivity; congruence).
      rewrite E. intros i [d [E' _]]. cbn in E'. inversion E'; congruence.
Qed.
Lemma decimal_fun s z z' : decimal s z -> decimal s z' -> z = z'.
Proof. rewrite <- !parseNat_decimal. congruence. Qed.
Lemma index_step_fun s i j : index_step s i -> index_step s j -> i = j.
Proof.
  intros [d [-> H]] [d' [E H']]. cbn in E. inversion E as [E']. apply sapp_inj_r in E'. subst d'.
  apply parse_literal in H. apply parse_literal in H'. congruence.
Qed.
Lemma stepIndex_some s i : stepIndex s = Some (Some i) <-> index_step s i /\ in64 i.
Proof.
  assert (S := stepIndex_spec s). destruct (stepIndex s) as [[j|]|].
  - split; [intro H; inversion H; subst; exact S|]. intros [H _]. destruct S as [S _].
    rewrite (index_step_fun _ _ _ S H). reflexivity.
  - split; [discriminate|]. intros [H Hi]. destruct S as [j [S Hj]].
    rewrite (index_step_fun _ _ _ S H) in Hj. contradiction.
  - split; [discriminate|]. intros [H _]. exfalso. exact (S i H).
Qed.
Lemma stepIndex_none s : stepIndex s = None <-> forall i, ~ index_step s i.
Proof.
  assert (S := stepIndex_spec s). destruct (stepIndex s) as [[j|]|].
  - split; [discriminate|]. intro H. exfalso. apply (H j), S.
  - split; [discriminate|]. intro H. destruct S as [j [S _]]. exfalso. apply (H j), S.
  - tauto.
Qed.
Lemma stepIndex_out s : stepIndex s = Some None <-> exists i, index_step s i /\ ~ in64 i.
Proof.
  assert (S := stepIndex_spec s). destruct (stepIndex s) as [[j|]|].
  - split; [discriminate|]. intros [i [H Hi]]. destruct S as [S Sj].
    rewrite (index_step_fun _ _ _ S H) in Sj. contradiction.
  - tauto.
  - split; [discriminate|]. intros [i [H _]]. exfalso. exact (S i H).
Qed.

Lemma cutColon_spec s a b : cutColon s = Some (a, b) <->
  s = (a +++ String ":" b)%string /\ forall x y, a <> (x +++ String ":" y)%string.
Proof.
  revert a b. induction s as [|c s IH]; intros a b.
  - cbn. split; [discriminate|]. intros [H _]. destruct a; discriminate.
  - assert (D : c = ":"%char \/ c <> ":"%char) by (destruct (ascii_dec c ":"); auto).
    destruct D as [->|Hc].
    + cbn. split.
      * intro H. inversion H; subst. split; [reflexivity|]. intros [|? ?] y; discriminate.
      * intros [H Hn]. destruct a as [|c' a]; [cbn in H; congruence|]. cbn in H. inversion H; subst.
        exfalso. apply (Hn "" a). reflexivity.
    + assert (E : cutColon (String c s) = match cutColon s with Some (a, b) => Some (String c a, b) | None => None end).
      { cbn. destruct c as [[] [] [] [] [] [] [] []]; try reflexivity. congruence. }
      rewrite E. destruct (cutColon s) as [[a' b']|] eqn:Es.
      * split.
        -- intro H. inversion H; subst. destruct (proj1 (IH a' b) eq_refl) as [-> Hn].
           split; [reflexivity|]. intros [|c' x] y Hx; cbn in Hx; inversion Hx; subst; [congruence|].
           eapply Hn; reflexivity.
        -- intros [H Hn]. destruct a as [|c' a]; cbn in H; inversion H; subst; [congruence|].
           assert (X : Some (a', b') = Some (a, b)).
           { apply IH. split; [reflexivity|]. intros x y Hx. apply (Hn (String c' x) y). cbn. congruence. }
           inversion X; reflexivity.
      * split; [discriminate|]. intros [H Hn]. exfalso.
        destruct a as [|c' a]; cbn in H; inversion H; subst; [congruence|].
        assert (X : None = Some (a, b)).
        { apply IH. split; [reflexivity|]. intros x y Hx. apply (Hn (String c' x) y). cbn. congruence. }
        discriminate X.
Qed.

Lemma addresses_spec kn s k v : addresses kn s k v <-> stepKey kn s = (k, v).
Proof.
  unfold addresses, stepKey. destruct (cutColon s) as [[a b]|] eqn:E.
  - destruct (proj1 (cutColon_spec _ _ _) E) as [-> Hn]. destruct a as [|c a].
    + split.
      * intros [[H1 [H2 H3]]|[H1 [-> ->]]]; [|reflexivity]. exfalso.
        assert (X : cutColon ("" +++ String ":" b) = Some (k, v)) by (apply cutColon_spec; auto).
        cbn in X. inversion X; subst. congruence.
      * intro H. inversion H; subst. right. split; [|auto].
        intros a' b' Ha Hx Heq.
        assert (X : cutColon ("" +++ String ":" b) = Some (a', b')) by (apply cutColon_spec; auto).
        cbn in X. inversion X; subst. congruence.
    + split.
      * intros [[H1 [H2 H3]]|[H1 _]].
        -- assert (X : cutColon (String c a +++ String ":" b) = Some (k, v)) by (apply cutColon_spec; auto).
           rewrite E in X. inversion X; reflexivity.
        -- exfalso. apply (H1 (String c a) b); [discriminate|exact Hn|reflexivity].
      * intro H. inversion H; subst. left. repeat split; [discriminate|exact Hn].
  - split.
    + intros [[H1 [H2 H3]]|[H1 [-> ->]]]; [|reflexivity].
      assert (X : cutColon s = Some (k, v)) by (apply cutColon_spec; auto). congruence.
    + intro H. inversion H; subst. right. split; [|auto]. intros a b Ha Hx Heq.
      assert (X : cutColon v = Some (a, b)) by (apply cutColon_spec; auto). congruence.
Qed.

Section Mode.
Variables raw ctrl : bool.

(** maps of the list elements have unique keys *)
Definition umap (n : node) : Prop := forall m, val n = VMap m -> NoDup (mkeys m).

Lemma keyField_spec k v n : umap n -> (keyField raw ctrl k n = Some v <-> carries raw ctrl k v n).
Proof.
  intro Hu. unfold keyField, carries. split.
  - destruct (val n) as [| | | | | | |m| | |] eqn:E; try discriminate.
    destruct (raw || mapResolved ctrl m) eqn:R; [|discriminate]. apply orb_settledM in R.
    destruct (mget k m) as [c|] eqn:G; [|discriminate]. destruct (val c) eqn:Ec; try discriminate.
    intro H. inversion H; subst. apply mget_In in G. eauto 6.
  - intros [m [c [E [R [Hin Ec]]]]]. rewrite E. apply orb_settledM in R. rewrite R.
    rewrite (In_mget _ _ _ (Hu m E) Hin), Ec. reflexivity.
Qed.

Lemma findKeyed_spec l k v c : Forall umap l ->
  (findKeyed raw ctrl l k v = FOk c <->
   exists l1 l2, l = l1 ++ c :: l2 /\ carries raw ctrl k v c /\ forall x, In x l1 -> ~ carries raw ctrl k v x).
Proof.
  induction l as [|n l IH]; intro Hu.
  - cbn. split; [discriminate|]. intros [[|] [l2 [E _]]]; discriminate.
  - inversion Hu as [|? ? Hn Hl]; subst. specialize (IH Hl). cbn [findKeyed].
    assert (D : (exists w, keyField raw ctrl k n = Some w /\ w = v) \/ ~ carries raw ctrl k v n).
    { destruct (keyField raw ctrl k n) as [w|] eqn:E.
      - destruct (String.eqb_spec w v); [eauto|]. right. intro Hc. apply keyField_spec in Hc; [congruence|exact Hn].
      - right. intro Hc. apply keyField_spec in Hc; [congruence|exact Hn]. }
    destruct D as [[w [E ->]]|Hno].
    + rewrite E, String.eqb_refl. apply keyField_spec in E; [|exact Hn]. split.
      * intro H. inversion H; subst. exists [], l. split; [reflexivity|]. split; [exact E|]. intros x [].
      * intros [[|x l1] [l2 [El [Hc Hf]]]]; cbn in El; inversion El; subst; [reflexivity|].
        exfalso. apply (Hf x); [left; reflexivity|exact E].
    + assert (E : (match keyField raw ctrl k n with
                   | Some s => if String.eqb s v then FOk n else findKeyed raw ctrl l k v
                   | None => findKeyed raw ctrl l k v end) = findKeyed raw ctrl l k v).
      { destruct (keyField raw ctrl k n) as [w|] eqn:E; [|reflexivity].
        destruct (String.eqb_spec w v) as [->|]; [|reflexivity].
        apply keyField_spec in E; [contradiction|exact Hn]. }
      rewrite E, IH. split.
      * intros [l1 [l2 [-> [Hc Hf]]]]. exists (n :: l1), l2. split; [reflexivity|]. split; [exact Hc|].
        intros x [<-|Hx]; [exact Hno|auto].
      * intros [[|x l1] [l2 [El [Hc Hf]]]]; cbn in El; inversion El; subst; [contradiction|].
        exists l1, l2. split; [reflexivity|]. split; [exact Hc|]. intros y Hy. apply Hf. right. exact Hy.
Qed.

Lemma findKeyed_nopanic l k v : findKeyed raw ctrl l k v <> FPanic.
Proof.
  induction l as [|n l IH]; cbn; [discriminate|].
  destruct (keyField raw ctrl k n); [destruct (String.eqb _ _); [discriminate|exact IH]|exact IH].
Qed.

(** keys are unique in the node and its direct elements *)
Definition umap1 (n : node) : Prop :=
  umap n /\ forall l, val n = VList l -> Forall umap l /\ Z.of_nat (length l) <= max64.

Lemma nextStep_spec s n c : umap1 n -> (nextStep raw ctrl s n = FOk c <-> step1 raw ctrl n s c).
Proof.
  intros [Hu Hl]. unfold nextStep. split.
  - destruct (val n) as [| | | | | |l|m| | |] eqn:E; try discriminate.
    + destruct (raw || listResolved l) eqn:R; [|discriminate]. apply orb_settledL in R.
      destruct (Hl l eq_refl) as [Hul Hlen]. unfold stepList.
      destruct (stepIndex s) as [[i|]|] eqn:Ei; [|discriminate|].
      * destruct (Z.ltb_spec i 0) as [Hi|Hi].
        -- assert (Hin : in64 i) by (apply stepIndex_some in Ei; apply Ei).
           assert (W : wrap64 (Z.of_nat (length l) + i) = Z.of_nat (length l) + i).
           { apply wrap64_id. unfold in64, min64, max64 in *. lia. }
           rewrite W.
           destruct (Z.leb_spec (Z.of_nat (length l)) (Z.of_nat (length l) + i)); [discriminate|].
           destruct (Z.ltb_spec (Z.of_nat (length l) + i) 0); [discriminate|].
           destruct (nth_error l (Z.to_nat (Z.of_nat (length l) + i))) as [x|] eqn:En; [|discriminate].
           intro H1. inversion H1; subst.
           eapply (S_back _ _ _ _ _ l (- i)); eauto; try lia.
           ++ apply stepIndex_some in Ei. replace (- - i) with i by lia. apply Ei.
           ++ rewrite <- En. f_equal. lia.
        -- destruct (Z.leb_spec (Z.of_nat (length l)) i); [discriminate|].
           destruct (Z.ltb_spec i 0); [discriminate|].
           destruct (nth_error l (Z.to_nat i)) as [x|] eqn:En; [|discriminate].
           intro H1. inversion H1; subst. apply stepIndex_some in Ei. eapply S_index; eauto; apply Ei.
      * destruct (stepKey (a_keyName (ann n)) s) as [k v] eqn:Ek.
        intro H. apply findKeyed_spec in H; [|exact Hul]. destruct H as [l1 [l2 [-> [Hc Hf]]]].
        eapply S_name; eauto; [apply stepIndex_none, Ei|apply addresses_spec, Ek].
    + destruct (raw || mapResolved ctrl m) eqn:R; [|discriminate]. apply orb_settledM in R.
      destruct (mget s m) as [x|] eqn:G; [|discriminate]. intro H. inversion H; subst.
      apply mget_In in G. eapply S_key; eauto.
  - intros [m E R Hin|l i E R Ei Hi En|l i E R Ei Hi En|l l1 l2 k v E R Ei Ha El Hc Hf]; rewrite E.
    + apply orb_settledM in R. rewrite R, (In_mget _ _ _ (Hu m E) Hin). reflexivity.
    + apply orb_settledL in R. rewrite R. unfold stepList.
      destruct (Hl l E) as [_ Hlen].
      assert (Hb : (Z.to_nat i < length l)%nat) by (apply nth_error_Some; congruence).
      rewrite (proj2 (stepIndex_some s i)) by (split; [exact Ei|unfold in64, min64, max64 in *; lia]).
      assert (Hn := nth_error_Some l (Z.to_nat i)). rewrite En in Hn.
      assert (Z.to_nat i < length l)%nat by (apply Hn; discriminate).
      destruct (Z.ltb_spec i 0); [lia|]. destruct (Z.leb_spec (Z.of_nat (length l)) i); [lia|].
      destruct (Z.ltb_spec i 0); [lia|]. rewrite En. reflexivity.
    + apply orb_settledL in R. rewrite R. unfold stepList.
      destruct (Hl l E) as [_ Hlen].
      rewrite (proj2 (stepIndex_some s (- i))) by (split; [exact Ei|unfold in64, min64, max64 in *; lia]).
      destruct (Z.ltb_spec (- i) 0); [|lia].
      assert (W : wrap64 (Z.of_nat (length l) + - i) = Z.of_nat (length l) - i).
      { rewrite wrap64_id; [lia|]. unfold in64, min64, max64 in *. lia. }
      rewrite W. destruct (Z.leb_spec (Z.of_nat (length l)) (Z.of_nat (length l) - i)); [lia|].
      destruct (Z.ltb_spec (Z.of_nat (length l) - i) 0); [lia|].
      replace (Z.to_nat (Z.of_nat (length l) - i)) with (length l - Z.to_nat i)%nat by lia.
      rewrite En. reflexivity.
    + apply orb_settledL in R. rewrite R. unfold stepList. apply stepIndex_none in Ei. rewrite Ei.
      apply addresses_spec in Ha. rewrite Ha. apply findKeyed_spec; [apply (Hl l E)|]. eauto.
Qed.

Lemma nextStep_panic s n : umap1 n ->
  (nextStep raw ctrl s n = FPanic <->
   exists l, val n = VList l /\ (raw = true \/ settledL l) /\
   exists i, index_step s i /\ (i < - Z.of_nat (length l) \/ max64 < i)).
Proof.
  intros [Hu Hl]. unfold nextStep. split.
  - destruct (val n) as [| | | | | |l|m| | |] eqn:E; try discriminate.
    + destruct (raw || listResolved l) eqn:R; [|discriminate]. apply orb_settledL in R.
      intro H. exists l. split; [reflexivity|]. split; [exact R|]. unfold stepList in H.
      destruct (Hl l eq_refl) as [_ Hlen].
      destruct (stepIndex s) as [[i|]|] eqn:Ei;
        [|apply stepIndex_out in Ei; destruct Ei as [i [Ei Hi]]; exists i; split; [exact Ei|];
          unfold in64, min64, max64 in *; lia|].
      * exists i. split; [apply stepIndex_some in Ei; apply Ei|]. left.
        destruct (Z.ltb_spec i 0) as [Hi|Hi].
        -- assert (W : wrap64 (Z.of_nat (length l) + i) = Z.of_nat (length l) + i).
           { apply wrap64_id.
             assert (Hin : in64 i) by (apply stepIndex_some in Ei; apply Ei).
             unfold in64, min64, max64 in *. lia. }
           rewrite W in H. destruct (Z.leb_spec (Z.of_nat (length l)) (Z.of_nat (length l) + i)); [discriminate|].
           destruct (Z.ltb_spec (Z.of_nat (length l) + i) 0); [lia|].
           destruct (nth_error l _); discriminate.
        -- destruct (Z.leb_spec (Z.of_nat (length l)) i); [discriminate|].
           destruct (Z.ltb_spec i 0); [lia|]. destruct (nth_error l _); discriminate.
      * destruct (stepKey _ _). exfalso. exact (findKeyed_nopanic _ _ _ H).
    + destruct (raw || mapResolved ctrl m); [|discriminate]. destruct (mget s m); discriminate.
  - intros [l [E [R H]]]. rewrite E. apply orb_settledL in R. rewrite R. unfold stepList.
    destruct H as [i [Ei Hi]]. destruct (Hl l E) as [_ Hlen].
    destruct (in64b i) eqn:Hb;
      [|rewrite (proj2 (stepIndex_out s)); [reflexivity|]; exists i; split; [exact Ei|];
        intro X; apply in64b_spec in X; congruence].
    apply in64b_spec in Hb. assert (Ei' := Ei). clear Ei.
    assert (Ei : stepIndex s = Some (Some i)) by (apply stepIndex_some; auto). rewrite Ei.
    assert (Hin : in64 i) by (apply stepIndex_some in Ei; apply Ei).
    destruct (Z.ltb_spec i 0); [|unfold in64, max64, min64 in *; lia].
    assert (W : wrap64 (Z.of_nat (length l) + i) = Z.of_nat (length l) + i).
    { apply wrap64_id. unfold in64, min64, max64 in *. lia. }
    rewrite W. destruct (Z.leb_spec (Z.of_nat (length l)) (Z.of_nat (length l) + i)); [lia|].
    destruct (Z.ltb_spec (Z.of_nat (length l) + i) 0); [reflexivity|unfold in64, max64, min64 in *; lia].
Qed.

Lemma find_app p q n : find raw ctrl (p ++ q) n = fbind (find raw ctrl p n) (find raw ctrl q).
Proof.
  revert n. induction p as [|s p IH]; intro n; [reflexivity|].
  cbn [app find]. destruct (nextStep raw ctrl s n); cbn [fbind]; auto.
Qed.
End Mode.

(** every list of the tree fits into memory *)
Fixpoint fitsN (n : node) : Prop :=
  match n with
  | mkNode v _ _ _ _ =>
    match v with
    | VList l => Z.of_nat (length l) <= max64 /\
        (fix go (l : list node) : Prop := match l with [] => True | x :: r => fitsN x /\ go r end) l
    | VMap m => (fix go (m : list (string * node)) : Prop :=
           match m with [] => True | (_, x) :: r => fitsN x /\ go r end) m
    | _ => True
    end
  end.
Lemma fits_list l a s t r : fitsN (mkNode (VList l) a s t r) <-> Z.of_nat (length l) <= max64 /\ Forall fitsN l.
Proof.
  cbn [fitsN]. apply and_iff_compat_l. clear. induction l as [|x l IH]; [split; [constructor|trivial]|].
  rewrite IH. split; [intros [H1 H2]; constructor; auto|intro H; inversion H; auto].
Qed.
Lemma fits_map m a s t r : fitsN (mkNode (VMap m) a s t r) <-> Forall (fun kv => fitsN (snd kv)) m.
Proof.
  cbn. induction m as [|[k x] l IH]; [split; [constructor|trivial]|].
  rewrite IH. split; [intros [H1 H2]; constructor; auto|intro H; inversion H; auto].
Qed.

Lemma wf_umap n : wfN n -> umap n.
Proof.
  intros H m E. apply wfN_val in H. rewrite E in H. apply wf_map in H. apply msorted_NoDup, H.
Qed.
Lemma wf_umap1 n : wfN n -> fitsN n -> umap1 n.
Proof.
  intros H F. split; [apply wf_umap, H|]. intros l E. apply wfN_val in H. rewrite E in H. apply wf_list in H.
  destruct n as [v a s t r]. cbn [val] in E. subst v. apply fits_list in F. split; [|apply F].
  eapply Forall_impl; [|exact H]. intros x. apply wf_umap.
Qed.

Lemma step1_child raw ctrl n s c : step1 raw ctrl n s c ->
  (exists m k, val n = VMap m /\ In (k, c) m) \/ (exists l, val n = VList l /\ In c l).
Proof.
  intros [m E R Hin|l i E R Ei Hi En|l i E R Ei Hi En|l l1 l2 k v E R Ei Ha El Hc Hf].
  - left. eauto.
  - right. exists l. split; [exact E|]. eapply nth_error_In; eauto.
  - right. exists l. split; [exact E|]. eapply nth_error_In; eauto.
  - right. exists l. split; [exact E|]. subst. apply in_or_app. right. left. reflexivity.
Qed.
Lemma child_wf n c : wfN n -> fitsN n ->
  (exists m k, val n = VMap m /\ In (k, c) m) \/ (exists l, val n = VList l /\ In c l) -> wfN c /\ fitsN c.
Proof.
  intros H F D. destruct n as [v a s t r]. apply wfN_val in H. cbn [val] in *.
  destruct D as [[m [k [-> Hin]]]|[l [-> Hin]]].
  - apply wf_map in H. apply fits_map in F. destruct H as [_ H]. rewrite Forall_forall in *.
    split; [apply (H _ Hin)|apply (F _ Hin)].
  - apply wf_list in H. apply fits_list in F. destruct F as [_ F]. rewrite Forall_forall in *. auto.
Qed.

Lemma find_reaches raw ctrl p n c : wfN n -> fitsN n -> (find raw ctrl p n = FOk c <-> reaches raw ctrl n p c).
Proof.
  revert n. induction p as [|s p IH]; intros n W F.
  - cbn. split; intro H; inversion H; subst; constructor.
  - cbn [find]. split.
    + destruct (nextStep raw ctrl s n) as [d| |] eqn:E; try discriminate.
      apply nextStep_spec in E; [|apply wf_umap1; assumption].
      destruct (child_wf n d W F (step1_child _ _ _ _ _ E)) as [Wd Fd].
      intro H. apply (IH d Wd Fd) in H. econstructor; eauto.
    + intro H. inversion H as [|n0 s0 d p0 d0 H1 H2]; subst.
      destruct (child_wf n d W F (step1_child _ _ _ _ _ H1)) as [Wd Fd].
      apply nextStep_spec in H1; [|apply wf_umap1; assumption]. rewrite H1. apply IH; assumption.
Qed.

(** lookup crashes exactly when some prefix of the path reaches a list and the
    next step is an index below the first or beyond the integer range *)
Lemma find_panic raw ctrl p n : wfN n -> fitsN n ->
  (find raw ctrl p n = FPanic <->
   exists p1 s p2 d l, p = p1 ++ s :: p2 /\ reaches raw ctrl n p1 d /\ val d = VList l /\ (raw = true \/ settledL l) /\
     exists i, index_step s i /\ (i < - Z.of_nat (length l) \/ max64 < i)).
Proof.
  revert n. induction p as [|s p IH]; intros n W F.
  - cbn. split; [discriminate|]. intros [p1 [s0 [p2 [d [l [E _]]]]]]; destruct p1; discriminate.
  - cbn [find]. split.
    + destruct (nextStep raw ctrl s n) as [d| |] eqn:E; try discriminate.
      * apply nextStep_spec in E; [|apply wf_umap1; assumption].
        destruct (child_wf n d W F (step1_child _ _ _ _ _ E)) as [Wd Fd].
        intro H. apply (IH d Wd Fd) in H. destruct H as [p1 [s' [p2 [d' [l [-> [H1 H2]]]]]]].
        exists (s :: p1), s', p2, d', l. split; [reflexivity|]. split; [econstructor; eauto|exact H2].
      * intros _. apply nextStep_panic in E; [|apply wf_umap1; assumption]. destruct E as [l [E H]].
        exists [], s, p, n, l. split; [reflexivity|]. split; [constructor|]. split; [exact E|exact H].
    + intros [[|s1 p1] [s' [p2 [d' [l [Ep [H1 [H2 H3]]]]]]]]; cbn in Ep; inversion Ep; subst.
      * inversion H1; subst.
        assert (X : nextStep raw ctrl s' d' = FPanic) by (apply nextStep_panic; [apply wf_umap1; assumption|eauto]).
        rewrite X. reflexivity.
      * inversion H1 as [|n0 s0 d p0 d0 Hs Hr]; subst.
        destruct (child_wf n d W F (step1_child _ _ _ _ _ Hs)) as [Wd Fd].
        apply nextStep_spec in Hs; [|apply wf_umap1; assumption]. rewrite Hs. apply IH; eauto 10.
Qed.
