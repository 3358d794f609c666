(** The specifications of merging (FlowSpec.v, MergeSpec.v) determine the result. *)
From Coq Require Import Lia.
From Verif Require Import Core CoreFacts Str DecSpec Interp Find FindFacts Cleanup Env Flow FlowSpec FlowFacts MergeSpec PropFlow.
Import ListNotations.
Open Scope string_scope. Open Scope list_scope.

Section Det.
Variables interpol ctrl : bool.
Variable stubs : list node.
Notation plain := (plainDoc ordinaryKey interpol).

Lemma sorted_fun : forall (m : smap node) k a b, msorted m -> In (k, a) m -> In (k, b) m -> a = b.
Proof.
  intros m k a b So A B. apply (In_mget k a m (msorted_NoDup m So)) in A. apply (In_mget k b m (msorted_NoDup m So)) in B. congruence.
Qed.
Lemma plain_named n x y : plain n -> named n x -> named n y -> x = y.
Proof.
  intros P (m & c & V & I & E) (m' & c' & V' & I' & E'). destruct P as [v s L|l a s A F|m0 s So Ko F]; cbn [val] in *; subst; try congruence.
  - inversion L.
  - injection V as <-. injection V' as <-. pose proof (sorted_fun _ _ _ _ So I I'). congruence.
Qed.
Lemma byName_fun l s s' : Forall plain l -> byName l s -> byName l s' -> s = s'.
Proof.
  intros P (n & F & _ & ->) (n' & F' & _ & ->). f_equal. revert n' F'. induction F as [|x y l n H F IH]; intros n' F'; inversion F' as [|? y' ? n'' H' F'']; subst; [reflexivity|].
  inversion P; subst. f_equal; [eapply plain_named; eassumption|auto].
Qed.
Lemma steps_fun l s s' : Forall plain l -> stepsOf l s -> stepsOf l s' -> s = s'.
Proof.
  intros P [H|[N H]] [H'|[N' H']].
  - eapply byName_fun; eassumption.
  - exfalso. eapply N'; eassumption.
  - exfalso. eapply N; eassumption.
  - unfold byIndex in *. congruence.
Qed.
Lemma plain_parts n : plain n -> (forall l, val n = VList l -> Forall plain l) /\ (forall m, val n = VMap m -> msorted m /\ Forall (fun kv => plain (snd kv)) m).
Proof.
  intros [v s L|l a s A F|m s So Ko F]; split; intros x E; cbn [val] in E; subst; try discriminate; try (now inversion L); now injection E as <-.
Qed.

Lemma merges_fun : forall n over p r r', plain n -> merges ctrl stubs over p n r -> merges ctrl stubs over p n r' -> sameDoc r r'.
Proof.
  induction n as [v a s t rf IH] using node_ind'. intros over p r r' P H H'. destruct (plain_parts _ P) as [PL PM].
  inversion H as [? ? ? m ? m1 E1 E2 F|? ? ? l st ? l1 E1 E2 S1 F|? ? ? ? N1 N2 U E|? ? w ? N1 N2 U E]; subst;
  inversion H' as [? ? ? m' ? m1' E1' E2' F'|? ? ? l' st' ? l1' E1' E2' S1' F'|? ? ? ? N1' N2' U' E'|? ? w' ? N1' N2' U' E']; subst;
    try (exfalso; match goal with N : forall x, _ <> _ |- _ => eapply N; eassumption end); try congruence.
  - rewrite E1' in E1. injection E1 as <-. destruct (PM _ E1') as [_ PF]. cbn [val] in E1'. subst v.
    apply (data_map r m1 m1' r' E2 E2'). clear - F F' IH PF. revert m1 m1' F F'.
    induction m' as [|[k c] m IHm]; intros m1 m1' F F'; inversion F as [|? y ? z [K M] Fz]; inversion F' as [|? y' ? z' [K' M'] Fz']; subst; constructor.
    + split; [congruence|]. inversion IH; subst. inversion PF; subst. eapply (H1 true (p ++ [k])); eassumption.
    + inversion IH; subst. inversion PF; subst. auto.
  - rewrite E1' in E1. injection E1 as <-. specialize (PL _ E1'). pose proof (steps_fun _ _ _ PL S1 S1') as <-. cbn [val] in E1'. subst v.
    apply (data_list r l1 l1' r' E2 E2'). clear - F F' IH PL. revert st l1 l1' F F'.
    induction l' as [|c l IHl]; intros st l1 l1' F F'; inversion F as [|? st0 sts x lx y ly M ML]; inversion F' as [|? st1 sts1 x1 lx1 y1 ly1 M1 ML1]; subst; [reflexivity|].
    match goal with E : _ :: _ = _ :: _ |- _ => injection E as <- <- end.
    cbn [map]. inversion IH; subst. inversion PL; subst. f_equal; [eapply (H1 false); eassumption|eauto].
  - apply data_val. congruence.
  - exfalso. eapply defined_undefined; [exact U'|exact (U eq_refl)].
  - exfalso. eapply defined_undefined; [exact U|exact (U' eq_refl)].
  - pose proof (defined_same ctrl _ _ _ _ U U') as <-. unfold sameDoc in *. congruence.
Qed.

Variable parse : string -> list string -> list string -> option expr.
Variable quote : string -> string.
Notation textAt := (MergeSpec.textAt interpol parse quote).
Notation yields := (MergeSpec.yields interpol ctrl stubs).
Notation basis := (MergeSpec.basis interpol ctrl parse quote stubs).
Notation mdoc := (MergeSpec.mdoc interpol ctrl parse quote stubs).
Notation fills := (MergeSpec.fills interpol ctrl parse quote stubs).

Lemma textAt_fun pa p t e e' : textAt pa p t e -> textAt pa p t e' -> e = e'.
Proof. intros (x & s & u & E & M & R) (x' & s' & u' & E' & M' & R'). congruence. Qed.
Lemma literal_fun e x y : literal interpol e x -> literal interpol e y -> x = y.
Proof. intros [] B; inversion B; reflexivity. Qed.
Lemma yields_fun p e v w : yields p e v -> yields p e w -> sameDoc v w.
Proof.
  intros [q rd rp rq v0 O D|q rd rp rq s|q rd rp rq d v0 O D|q rd rp rq d x s O R U L] Y;
    inversion Y as [q' rd' rp' rq' v' O' D'|q' rd' rp' rq' s'|q' rd' rp' rq' d' v' O' D'|q' rd' rp' rq' d' x' s' O' R' U' L']; subst.
  - unfold sameDoc. f_equal. eapply defined_same; eassumption.
  - reflexivity.
  - unfold sameDoc. f_equal. eapply defined_same; eassumption.
  - exfalso. eapply defined_undefined; eassumption.
  - exfalso. eapply defined_undefined; eassumption.
  - pose proof (literal_fun _ _ _ L L') as <-. reflexivity.
Qed.

Lemma sameMap r r' rm rm' : val r = VMap rm -> val r' = VMap rm' -> msorted rm -> msorted rm' ->
  (forall k y, In (k, y) rm -> exists y', In (k, y') rm' /\ sameDoc y y') -> (forall k y, In (k, y) rm' -> exists y', In (k, y') rm /\ sameDoc y y') -> sameDoc r r'.
Proof.
  destruct r, r'. cbn [val]. intros -> -> S1 S2 A B. unfold sameDoc. cbn [data]. f_equal. f_equal.
  assert (K : forall m : smap node, mkeys m = mkeys (map (fun kv : string * node => match kv with (k, c) => (k, data c) end) m)).
  { intro m. unfold mkeys. rewrite map_map. apply map_ext. now intros [k c]. }
  apply msorted_in_ext.
  - eapply msorted_keys_eq; [apply K|exact S1].
  - eapply msorted_keys_eq; [apply K|exact S2].
  - intros k v. split; intro I; apply in_map_iff in I as ([k0 c] & E & I); injection E as <- <-.
    + destruct (A _ _ I) as (c' & I' & S'). apply in_map_iff. exists (k0, c'). split; [now rewrite S'|exact I'].
    + destruct (B _ _ I) as (c' & I' & S'). apply in_map_iff. exists (k0, c'). split; [now rewrite S'|exact I'].
Qed.

Hypothesis SP : Forall plain stubs.
Lemma found_sorted q v m : definedBy ctrl stubs q v -> val v = VMap m -> msorted m.
Proof.
  intros (b & s & a & -> & F & _) V. apply Forall_app in SP as [_ P]. inversion P as [|? ? Ps _]; subst.
  pose proof (plain_find ordinaryKey interpol ctrl q s v Ps F) as Pv. exact (proj1 (proj2 (plain_parts v Pv) m V)).
Qed.
Lemma basis_fun pa p m q bm q' bm' : msorted m -> basis pa p m q bm -> basis pa p m q' bm' -> q = q' /\ bm = bm'.
Proof.
  intros So [N|x q0 rd rq v b I T O R D V|x rp I T U] B; inversion B as [N'|x' q0' rd' rq' v' b' I' T' O' R' D' V'|x' rp' I' T' U']; subst;
    try (exfalso; match goal with N : ~ In _ _, I : In (_, _) _ |- _ => apply N, (in_map fst _ _ I) end); try (split; reflexivity).
  - pose proof (sorted_fun _ _ _ _ So I I') as <-. pose proof (textAt_fun _ _ _ _ _ T T') as E. injection E as <- <- <-.
    pose proof (defined_same ctrl _ _ _ _ D D') as <-. rewrite V in V'. now injection V' as <-.
  - exfalso. pose proof (sorted_fun _ _ _ _ So I I') as <-. pose proof (textAt_fun _ _ _ _ _ T T') as E. injection E as <- <- <-. eapply defined_undefined; eassumption.
  - exfalso. pose proof (sorted_fun _ _ _ _ So I I') as <-. pose proof (textAt_fun _ _ _ _ _ T T') as E. injection E as <- <- <-. eapply defined_undefined; eassumption.
Qed.
Lemma basis_sorted pa p m q bm : basis pa p m q bm -> msorted bm.
Proof. intros [N|x q0 rd rq v b I T O R D V|x rp I T U]; [exact Logic.I|eapply found_sorted; eassumption|exact Logic.I]. Qed.

(** the two ways a map can be filled *)
Definition byFields pa p (m : smap node) r := exists q bm rm, basis pa p m q bm /\ val r = VMap rm /\ msorted rm /\
  (forall k, In k (map fst rm) <-> (In k (map fst m) /\ k <> "<<") \/ In k (map fst bm)) /\
  (forall k x y, In (k, x) m -> k <> "<<" -> In (k, y) rm -> fills (pa ++ [k]) (q ++ [k]) x y) /\
  (forall k y z, ~ In k (map fst m) -> In (k, y) rm -> In (k, z) bm -> sameDoc y z).
Definition byReplace pa p (m : smap node) r := exists x q rd rq v bm, In ("<<", x) m /\ textAt pa p x (EMerge q rd true rq false "") /\
  definedBy ctrl stubs q v /\ val v = VMap bm /\ sameDoc r v.
Lemma fills_map pa p m s r : msorted m -> fills pa p (mkNode (VMap m) emptyAnn s None None) r -> byFields pa p m r \/ byReplace pa p m r.
Proof.
  intros So H. inversion H as [? ? ? ? P M|? ? ? e v ? (x & s0 & u & E & _) Y S0|? ? ? ? q bm ? rm B V Sr K C1 C2|? ? ? ? x q rd rq v bm ? I T D V S0| |]; subst.
  - left. destruct (merges_map _ _ _ _ _ _ _ M eq_refl) as (m' & V & F). inversion P as [? ? L|? ? ? A F0|? ? So' Ko F0]; subst.
    { inversion L. }
    assert (K : mkeys m = mkeys m'). { clear - F. induction F as [|[k c] [k' c'] m m' [E _] F IH]; [reflexivity|]. unfold mkeys in *. cbn [map fst] in *. now rewrite E, IH. }
    assert (NK : ~ In "<<" (map fst m)).
    { intro I. apply in_map_iff in I as ([k c] & E & I). cbn [fst] in E. subst k. rewrite Forall_forall in Ko. destruct (Ko _ I) as [Q _]. cbn [fst] in Q. apply (proj1 Q). now exists EmptyString. }
    exists p, [], m'. split; [now constructor|]. split; [exact V|]. split; [now apply (msorted_keys_eq m)|]. split; [|split].
    + intro k. change (map fst m') with (mkeys m'). rewrite <- K. split; [intro I; left; split; [exact I|intros ->; contradiction]|intros [[I _]|[]]; exact I].
    + intros k x y I _ I'. pose proof I as I0. apply (F2_In _ _ _ F) in I as ([k' y'] & Iy & E & M'). cbn [fst snd] in *. subst k'.
      pose proof (sorted_fun _ _ _ _ (msorted_keys_eq m m' K So) I' Iy) as ->. apply F_plain; [|exact M'].
      rewrite Forall_forall in F0. exact (F0 _ I0).
    + intros k y z _ _ [].
  - discriminate E.
  - left. exists q, bm, rm. auto 10.
  - right. exists x, q, rd, rq, v, bm. auto 10.
Qed.

Lemma basis_ordinary pa p m q bm : basis pa p m q bm -> ~ In "<<" (map fst bm).
Proof.
  intros [N|x q0 rd rq v b I T O R D V|x rp I T U]; try (intros []).
  destruct D as (b0 & s & a & -> & F & _). apply Forall_app in SP as [_ P]. inversion P as [|? ? Ps _]; subst.
  pose proof (plain_find ordinaryKey interpol ctrl q0 s v Ps F) as Pv. intro J. apply in_map_iff in J as ([k c] & E & J). cbn [fst] in E. subst k.
  inversion Pv as [? ? L|? ? ? A F0|? ? So' Ko F0]; subst; cbn [val] in V.
  - subst. inversion L.
  - discriminate V.
  - injection V as ->. rewrite Forall_forall in Ko. destruct (Ko _ J) as [Q _]. apply (proj1 Q). now exists EmptyString.
Qed.
Lemma keys_eq (m m' : smap node) : msorted m -> msorted m' -> (forall k, In k (map fst m) <-> In k (map fst m')) -> mkeys m = mkeys m'.
Proof.
  intros S1 S2 K. set (f := fun kv : string * node => (fst kv, tt)).
  assert (KF : forall x : smap node, mkeys x = mkeys (map f x)) by (intro x; unfold mkeys; rewrite map_map; reflexivity).
  rewrite (KF m), (KF m'). f_equal. apply msorted_in_ext; [eapply msorted_keys_eq; [apply KF|exact S1]|eapply msorted_keys_eq; [apply KF|exact S2]|].
  assert (G : forall (x : smap node) k u, In (k, u) (map f x) <-> In k (map fst x)).
  { intros x k []. split; intro I; apply in_map_iff in I as ([k0 c] & E & I); apply in_map_iff; exists (k0, c); unfold f in *; cbn [fst] in *; [injection E as ->; auto|subst; auto]. }
  intros k u. rewrite !G. apply K.
Qed.
Lemma f2_keys (R : string * node -> string * node -> Prop) : forall (m m' : smap node), mkeys m = mkeys m' ->
  (forall k x y, In (k, x) m -> In (k, y) m' -> R (k, x) (k, y)) -> Forall2 R m m'.
Proof.
  induction m as [|[k x] m IH]; intros [|[k' y] m'] K H; try discriminate K; constructor; unfold mkeys in K; cbn [map fst] in K; injection K as -> K.
  - apply H; now left.
  - apply IH; [exact K|]. intros; apply H; now right.
Qed.
Lemma plain_text pa p t e : plain t -> textAt pa p t e -> False.
Proof.
  intros P (x & s & u & -> & E & _). inversion P as [? ? L| |]; subst. inversion L; subst.
  rewrite (literal_embedded quote interpol (mkNode (VStr x) emptyAnn s None None) x eq_refl) in E by assumption. discriminate E.
Qed.
(** ** lists *)
Notation entries := (MergeSpec.entries interpol ctrl parse quote stubs).
Lemma entries_fun pa p x q il q' il' : entries pa p x q il -> entries pa p x q' il' -> q = q' /\ il = il'.
Proof.
  intros [q0 rd rq v i T O R D V|rp T U] B; inversion B as [q0' rd' rq' v' i' T' O' R' D' V'|rp' T' U']; subst.
  - pose proof (textAt_fun _ _ _ _ _ T T') as E. injection E as <- <- <-. pose proof (defined_same ctrl _ _ _ _ D D') as <-. rewrite V in V'. now injection V' as <-.
  - exfalso. pose proof (textAt_fun _ _ _ _ _ T T') as E. injection E as <- <- <-. eapply defined_undefined; eassumption.
  - exfalso. pose proof (textAt_fun _ _ _ _ _ T T') as E. injection E as <- <- <-. eapply defined_undefined; eassumption.
  - split; reflexivity.
Qed.
Lemma entries_plain pa p x q il : entries pa p x q il -> Forall plain il.
Proof.
  intros [q0 rd rq v i T O R D V|rp T U]; [|constructor]. destruct D as (b & s & a & -> & F & _). apply Forall_app in SP as [_ P]. inversion P as [|? ? Ps _]; subst.
  pose proof (plain_find ordinaryKey interpol ctrl q0 s v Ps F) as Pv. exact (proj1 (plain_parts v Pv) i V).
Qed.
Lemma newOnes_fun o il new : newOnes o il new -> forall new', Forall plain il -> newOnes o il new' -> new = new'.
Proof.
  induction 1 as [|e n il new N E H IH|e n il new N E H IH]; intros new' P H'; inversion H' as [|? n' ? ? N' E' Hr|? n' ? ? N' E' Hr]; subst; inversion P as [|? ? Pe P']; subst; try reflexivity; try (pose proof (plain_named _ _ _ Pe N N') as <-).
  - auto.
  - exfalso. destruct E as (y & Iy & Ny). exact (E' y Iy Ny).
  - exfalso. destruct E' as (y & Iy & Ny). exact (E y Iy Ny).
  - f_equal. auto.
Qed.
Definition isEntry (t : node) : Prop := exists x, val t = VMap [("<<", x)].
Lemma named_noEntry t n : named t n -> ~ isEntry t.
Proof. intros (m & c & V & I & _) (x & V'). rewrite V in V'. injection V' as ->. destruct I as [I|[]]. discriminate I. Qed.
Lemma split_unique (P : node -> Prop) : forall pre pre' e e' post post', pre ++ e :: post = pre' ++ e' :: post' -> (forall t, In t (pre ++ post) -> ~ P t) -> P e -> P e' ->
  pre = pre' /\ e = e' /\ post = post'.
Proof.
  induction pre as [|x pre IH]; intros [|x' pre'] e e' post post' E N Pe Pe'; cbn [app] in E; injection E as E1 E2.
  - subst. auto.
  - subst. exfalso. apply (N e'); [|exact Pe']. cbn [app]. rewrite in_app_iff. right. now left.
  - subst. exfalso. apply (N e'); [now left|exact Pe'].
  - subst. destruct (IH pre' e e' post post' E2) as (-> & -> & ->); auto. intros t I. apply N. now right.
Qed.
Lemma combine_same : forall (l rl rl' : list node), length rl = length l -> length rl' = length l ->
  (forall t y y', In t l -> In (t, y) (combine l rl) -> In (t, y') (combine l rl') -> sameDoc y y') -> map data rl = map data rl'.
Proof.
  induction l as [|t l IH]; intros [|y rl] [|y' rl'] L L' H; try discriminate L; try discriminate L'; [reflexivity|]. cbn [map]. f_equal.
  - apply (H t); now left.
  - apply IH; [cbn in L; lia|cbn in L'; lia|]. intros t0 a b I A B. apply (H t0); now right.
Qed.
Lemma app_eq_len {A} : forall (a a' b b' : list A), a ++ b = a' ++ b' -> length a = length a' -> a = a' /\ b = b'.
Proof. induction a as [|x a IH]; intros [|x' a'] b b' E L; try discriminate L; [auto|]. cbn in *. injection E as -> E. destruct (IH a' b b' E) as [-> ->]; [lia|auto]. Qed.
Lemma merges_any over p t m r : val t = VMap m -> merges ctrl stubs true p t r -> merges ctrl stubs over p t r.
Proof.
  intros V H. inversion H as [? ? ? m0 ? m1 E1 E2 F|? ? ? l st ? l1 E1 E2 S1 F|? ? ? ? N1 N2 U E|? ? w ? N1 N2 U E]; subst.
  - eapply M_map; eassumption.
  - congruence.
  - exfalso. eapply N2, V.
  - exfalso. eapply N2, V.
Qed.
Lemma element_named pa p n t : element interpol parse quote pa p n t -> named t n.
Proof. intros (m & s & c & -> & _ & I & _). exists m, (mkNode (VStr n) emptyAnn c None None). auto. Qed.
Lemma plain_noMergeKey m a s tg rf k : plain (mkNode (VMap m) a s tg rf) -> In k (map fst m) -> k <> "<<".
Proof.
  intros P I ->. inversion P as [? ? L|? ? ? A F0|? ? So' Ko F0]; subst; [inversion L|]. apply in_map_iff in I as ([k c] & E & I). cbn [fst] in E. subst k.
  rewrite Forall_forall in Ko. destruct (Ko _ I) as [Q _]. cbn [fst] in Q. apply (proj1 Q). now exists EmptyString.
Qed.
Lemma fills_plain : forall t pa p r, plain t -> fills pa p t r -> merges ctrl stubs true p t r.
Proof.
  induction t as [v a s tg rf IH] using node_ind'. intros pa p r P F.
  inversion F as [? ? ? ? P' M|? ? ? e1 v1 ? T1 Y1 S1|? ? m s0 q bm ? rm B V Sr K C1 C2|? ? ? ? x q rd rq w bm ? I T1 D V S0
    |? ? l s0 names ? rl NA ND V Len C|? ? pre x s' post s0 q il new ? rpre rnew rpost HE HN V La Lb SN C]; subst.
  - exact M.
  - exfalso. eapply plain_text; eassumption.
  - inversion P as [? ? L|? ? ? A F0|? ? So' Ko F0]; subst; [inversion L|].
    assert (NK : ~ In "<<" (map fst m)).
    { intro I. apply in_map_iff in I as ([k c] & E & I). cbn [fst] in E. subst k. rewrite Forall_forall in Ko. destruct (Ko _ I) as [Q _]. cbn [fst] in Q. apply (proj1 Q). now exists EmptyString. }
    destruct B as [N|x' q0' rd' rq' v' b' I' T' O' R' D' V'|x' rp' I' T' U']; try (exfalso; apply NK, (in_map fst _ _ I')).
    eapply M_map; [reflexivity|exact V|]. apply f2_keys.
    + apply keys_eq; [exact So'|exact Sr|]. intro k. rewrite K. split; [intro I; left; split; [exact I|intros ->; contradiction]|intros [[I _]|[]]; exact I].
    + intros k x y Ix Iy. cbn [fst snd]. split; [reflexivity|]. cbn in IH. rewrite Forall_forall in IH, F0. pose proof (IH _ Ix) as IHx. cbn [snd] in IHx.
      eapply (IHx (pa ++ [k])); [exact (F0 _ Ix)|]. apply C1; [exact Ix| |exact Iy]. intros ->. apply NK, (in_map fst _ _ Ix).
  - inversion P as [? ? L|? ? ? A F0|? ? So' Ko F0]; subst; [inversion L|].
    exfalso. rewrite Forall_forall in Ko. destruct (Ko _ I) as [Q _]. cbn [fst] in Q. apply (proj1 Q). now exists EmptyString.
  - destruct (plain_parts _ P) as [PL _]. specialize (PL _ eq_refl). eapply M_list; [reflexivity|exact V|left; exists names; split; [exact NA|split; [exact ND|reflexivity]]|].
    cbn in IH. clear - NA Len C IH PL. revert rl Len C. induction NA as [|t n l names N NA IHn]; intros [|y rl] Len C; try discriminate Len; cbn [map]; [constructor|].
    inversion IH as [|? ? IHt IH']; subst. inversion PL as [|? ? Pt PL']; subst. constructor.
    + pose proof N as (m & c & V & _). apply (merges_any _ _ _ _ _ V). eapply (IHt (pa ++ [nm n])); [exact Pt|]. apply C; [now left|exact N].
    + apply IHn; [exact IH'|exact PL'|cbn in Len; lia|]. intros t0 n0 y0 I N0. apply C; [now right|exact N0].
  - exfalso. destruct (plain_parts _ P) as [PL _]. specialize (PL _ eq_refl). apply Forall_app in PL as [_ PL]. inversion PL as [|? ? Pe _]; subst.
    eapply (plain_noMergeKey _ _ _ _ _ "<<" Pe); [now left|reflexivity].
Qed.
Lemma fills_fun : forall pa p t, mdoc pa p t -> forall r r', fills pa p t r -> fills pa p t r' -> sameDoc r r'.
Proof.
  assert (PT : forall pa p t e, plain t -> textAt pa p t e -> False).
  { intros pa p t e P (x & s & u & -> & E & _). inversion P as [? ? L| |]; subst. inversion L; subst.
    rewrite (literal_embedded quote interpol (mkNode (VStr x) emptyAnn s None None) x eq_refl) in E by assumption. discriminate E. }
  assert (RR : forall pa p m r r', msorted m -> byReplace pa p m r -> byReplace pa p m r' -> sameDoc r r').
  { intros pa p m r r' So (x & q & rd & rq & v & bm & I & T & D & _ & S1) (x' & q' & rd' & rq' & v' & bm' & I' & T' & D' & _ & S1').
    pose proof (sorted_fun _ _ _ _ So I I') as <-. pose proof (textAt_fun _ _ _ _ _ T T') as E. injection E as <- <- <-.
    pose proof (defined_same ctrl _ _ _ _ D D') as <-. unfold sameDoc in *. congruence. }
  assert (RF : forall pa p m r r', msorted m -> byReplace pa p m r -> byFields pa p m r' -> False).
  { intros pa p m r r' So (x & q & rd & rq & v & bm & I & T & D & _ & S1) (q' & bm' & rm & B & _).
    destruct B as [N|x' q0' rd' rq' v' b' I' T' O' R' D' V'|x' rp' I' T' U'].
    - apply N, (in_map fst _ _ I).
    - pose proof (sorted_fun _ _ _ _ So I I') as <-. pose proof (textAt_fun _ _ _ _ _ T T') as E. discriminate E.
    - pose proof (sorted_fun _ _ _ _ So I I') as <-. pose proof (textAt_fun _ _ _ _ _ T T') as E. injection E as -> _ _ _. eapply defined_undefined; eassumption. }
  induction 1 as [pa p t P Fi St|pa p t e v T Y|pa p m s q bm So Ko B C IH|pa p m s x q rd rq v bm So Ko I T O D V C
    |pa p l s names HE ND H IH|pa p pre x s' post s q il names inames HX HE ND HI NDI SI H IH]; intros r r' F F'.
  - apply (merges_fun t true p); [exact P|eapply fills_plain; eassumption|eapply fills_plain; eassumption].
  - inversion F as [? ? ? ? P M|? ? ? e1 v1 ? T1 Y1 S1|? ? m s q bm ? rm B V Sr K C1 C2|? ? ? ? x q rd rq w bm ? I T1 D V S0| |]; subst;
      try (exfalso; eapply PT; eassumption); try (destruct T as (? & ? & ? & E & _); discriminate E).
    inversion F' as [? ? ? ? P M|? ? ? e2 v2 ? T2 Y2 S2|? ? m s q bm ? rm B V Sr K C1 C2|? ? ? ? x q rd rq w bm ? I T2 D V S0| |]; subst;
      try (exfalso; eapply PT; eassumption); try (destruct T as (? & ? & ? & E & _); discriminate E).
    pose proof (textAt_fun _ _ _ _ _ T1 T2) as <-. pose proof (yields_fun _ _ _ _ Y1 Y2). unfold sameDoc in *. congruence.
  - destruct (fills_map _ _ _ _ _ So F) as [A|A], (fills_map _ _ _ _ _ So F') as [A'|A']; try (exfalso; eapply RF; eassumption); [|eapply RR; eassumption].
    destruct A as (q1 & b1 & rm & B1 & V1 & S1 & K1 & C1 & Z1), A' as (q2 & b2 & rm' & B2 & V2 & S2 & K2 & C2 & Z2).
    destruct (basis_fun _ _ _ _ _ _ _ So B B1) as [<- <-]. destruct (basis_fun _ _ _ _ _ _ _ So B B2) as [<- <-].
    pose proof (basis_sorted _ _ _ _ _ B) as Sb.
    assert (G : forall ra rb (ma mb : smap node), (forall k, In k (map fst ma) <-> (In k (map fst m) /\ k <> "<<") \/ In k (map fst bm)) ->
        (forall k, In k (map fst mb) <-> (In k (map fst m) /\ k <> "<<") \/ In k (map fst bm)) -> val ra = VMap ma -> val rb = VMap mb ->
        (forall k x y, In (k, x) m -> k <> "<<" -> In (k, y) ma -> fills (pa ++ [k]) (q ++ [k]) x y) ->
        (forall k x y, In (k, x) m -> k <> "<<" -> In (k, y) mb -> fills (pa ++ [k]) (q ++ [k]) x y) ->
        (forall k y z, ~ In k (map fst m) -> In (k, y) ma -> In (k, z) bm -> sameDoc y z) ->
        (forall k y z, ~ In k (map fst m) -> In (k, y) mb -> In (k, z) bm -> sameDoc y z) ->
        forall k y, In (k, y) ma -> exists y', In (k, y') mb /\ sameDoc y y').
    { clear - SP IH B So Sb. intros ra rb ma mb KA KB VA VB CA CB ZA ZB k y I. pose proof (in_map fst _ _ I) as Ik. cbn [fst] in Ik. pose proof Ik as Ik'. rewrite KA, <- KB in Ik'.
      apply in_map_iff in Ik' as ([k' y'] & E & I'). cbn [fst] in E. subst k'. exists y'. split; [exact I'|].
      destruct (in_dec string_dec k (map fst m)) as [Im|Nm].
      - apply in_map_iff in Im as ([k' x] & E & Im). cbn [fst] in E. subst k'.
        assert (k <> "<<"). { intros ->. apply KA in Ik as [[_ N]|Ib]; [now apply N|]. eapply (basis_ordinary _ _ _ _ _ B); exact Ib. }
        eapply IH; eauto.
      - apply KA in Ik as [[Im _]|Ib]; [contradiction|]. apply in_map_iff in Ib as ([k' z] & E & Ib). cbn [fst] in E. subst k'.
        pose proof (ZA _ _ _ Nm I Ib). pose proof (ZB _ _ _ Nm I' Ib). unfold sameDoc in *. congruence. }
    apply (sameMap r r' rm rm'); try assumption; [apply (G r r' rm rm'); assumption|apply (G r' r rm' rm); assumption].
  - destruct (fills_map _ _ _ _ _ So F) as [A|A], (fills_map _ _ _ _ _ So F') as [A'|A']; try (exfalso; eapply RF; eassumption); [|eapply RR; eassumption].
    exfalso. eapply RF; [exact So| |exact A]. exists x, q, rd, rq, v, bm. repeat split; assumption.
  - assert (NE : forall t, In t l -> ~ isEntry t).
    { clear - HE. induction HE as [|t n l names EL _ IH]; [intros ? []|]. intros t' [<-|I]; [eapply named_noEntry, element_named, EL|auto]. }
    assert (NA : forall t, In t l -> exists n, named t n).
    { clear - HE. induction HE as [|t n l names EL _ IH]; [intros ? []|]. intros t' [<-|I]; [exists n; eapply element_named, EL|auto]. }
    inversion F as [? ? ? ? P M|? ? ? e1 v1 ? T1 Y1 S1| | |? ? l0 s0 names1 ? rl NA1 ND1 V1 Len1 C1|? ? pre x s' post s0 q il new ? rpre rnew rpost HE1 HN1 V1 La1 Lb1 SN1 C1]; subst.
    + apply (merges_fun _ true p _ _ P); [exact M|eapply fills_plain; eassumption].
    + exfalso. destruct T1 as (? & ? & ? & E & _). discriminate E.
    + inversion F' as [? ? ? ? P M|? ? ? e1 v1 ? T1 Y1 S1| | |? ? l0 s1 names2 ? rl' NA2 ND2 V2 Len2 C2|? ? pre x s' post s1 q il new ? rpre rnew rpost HE2 HN2 V2 La2 Lb2 SN2 C2]; subst.
      * apply (merges_fun _ true p _ _ P); [eapply fills_plain; eassumption|exact M].
      * exfalso. destruct T1 as (? & ? & ? & E & _). discriminate E.
      * apply (data_list _ rl rl' _ V1 V2). apply (combine_same l); try assumption. intros t y y' It Iy Iy'. destruct (NA t It) as (n & N).
        apply (IH t n It N); [apply C1|apply C2]; assumption.
      * exfalso. eapply (NE (mkNode (VMap [("<<", x)]) emptyAnn s' None None)); [apply in_or_app; right; now left|now exists x].
    + exfalso. eapply (NE (mkNode (VMap [("<<", x)]) emptyAnn s' None None)); [apply in_or_app; right; now left|now exists x].
  - assert (NE : forall t, In t (pre ++ post) -> ~ isEntry t).
    { clear - HE. induction HE as [|t n l names EL _ IH]; [intros ? []|]. intros t' [<-|I]; [eapply named_noEntry, element_named, EL|auto]. }
    assert (NA : forall t, In t (pre ++ post) -> exists n, named t n).
    { clear - HE. induction HE as [|t n l names EL _ IH]; [intros ? []|]. intros t' [<-|I]; [exists n; eapply element_named, EL|auto]. }
    set (en := mkNode (VMap [("<<", x)]) emptyAnn s' None None) in *. assert (IE : isEntry en) by now exists x.
    assert (G : forall r0, fills pa p (mkNode (VList (pre ++ en :: post)) emptyAnn s None None) r0 -> exists new rpre rnew rpost, newOnes (pre ++ post) il new /\
       val r0 = VList (rpre ++ rnew ++ rpost) /\ length rpre = length pre /\ length rpost = length post /\ Forall2 sameDoc rnew new /\
       (forall t n y, In (t, y) (combine (pre ++ post) (rpre ++ rpost)) -> named t n -> fills (pa ++ [nm n]) (q ++ [nm n]) t y)).
    { clear F F' r r'. intros r F. inversion F as [? ? ? ? P M|? ? ? e1 v1 ? T1 Y1 S1| | |? ? l0 s0 names1 ? rl NA1 ND1 V1 Len1 C1|? ? pre1 x1 s1 post1 s0 q1 il1 new ? rpre rnew rpost HE1 HN1 V1 La1 Lb1 SN1 C1]; subst.
      - exfalso. destruct (plain_parts _ P) as [PL _]. specialize (PL _ eq_refl). apply Forall_app in PL as [_ PL]. inversion PL as [|? ? Pe _]; subst.
        eapply (plain_noMergeKey _ _ _ _ _ "<<" Pe); [now left|reflexivity].
      - exfalso. destruct T1 as (? & ? & ? & E & _). discriminate E.
      - exfalso. destruct (F2_In _ _ _ NA1 en) as (n & _ & N); [apply in_or_app; right; now left|]. exact (named_noEntry _ _ N IE).
      - assert (EL : pre ++ en :: post = pre1 ++ mkNode (VMap [("<<", x1)]) emptyAnn s1 None None :: post1) by congruence.
        apply (split_unique isEntry) in EL; [|exact NE|exact IE|now exists x1]. destruct EL as (<- & EL & <-). unfold en in EL. injection EL as <- <-. destruct (entries_fun _ _ _ _ _ _ _ HX HE1) as [<- <-]. exists new, rpre, rnew, rpost. auto 10. }
    destruct (G r F) as (new & rpre & rnew & rpost & HN & V & La & Lb & SN & C), (G r' F') as (new' & rpre' & rnew' & rpost' & HN' & V' & La' & Lb' & SN' & C').
    pose proof (newOnes_fun _ _ _ HN _ (entries_plain _ _ _ _ _ HX) HN') as <-.
    assert (ED : map data (rpre ++ rpost) = map data (rpre' ++ rpost')).
    { apply (combine_same (pre ++ post)); [rewrite !app_length; lia|rewrite !app_length; lia|]. intros t y y' It Iy Iy'. destruct (NA t It) as (n & N).
      apply (IH t n It N); [apply C|apply C']; assumption. }
    assert (EN : map data rnew = map data rnew').
    { clear - SN SN'. revert rnew' SN'. induction SN as [|a b la lb S0 _ IH]; intros rn SN'; inversion SN' as [|a' ? la' ? S1 SN1]; subst; [reflexivity|]. cbn [map]. f_equal; [unfold sameDoc in *; congruence|auto]. }
    apply (data_list _ _ _ _ V V'). rewrite !map_app in *. rewrite EN. apply app_eq_len in ED as [-> ->]; [reflexivity|rewrite !map_length; lia].
Qed.
End Det.
