(** C55: whole documents with expressions.  A document whose expressions refer to each
    other without cycles is processed to the end; every expression is replaced by its value. *)
From Coq Require Import Lia.
From Verif Require Import Core CoreFacts Str StrFacts DecSpec Interp Find FindFacts EquivFacts PropInterp
  Cleanup Unresolved PropUnresolved DeepEq DeepEqFacts Env Flow FlowSpec FlowFacts FlowPass FlowMerge FlowStable
  Arith IP Comparison RangeSlice ListFns Info Eval Control Engine EngineFacts Runs DocSpec FlowDoc DocFacts DocEval.
From Verif Require PropRef PropInfo PropFlow PropFlow2.
From Verif Require Import World0.
Import ListNotations.
Open Scope string_scope. Open Scope list_scope.

Lemma plain_weaken (K K' : string -> Prop) : (forall k, K k -> K' k) -> forall i n, plainDoc K i n -> plainDoc K' i n.
Proof.
  intros H i. fix IH 2. intros n P. destruct P as [v s L|l a s A F|m s So Ko F].
  - now apply PD_leaf.
  - apply PD_list; [exact A|]. induction F; constructor; auto.
  - apply PD_map; [exact So|apply (Forall_impl _ (fun kv => H (fst kv)) Ko)|]. clear So Ko. induction F; constructor; auto.
Qed.

Section Bounds.
Variable interpol : bool.
Variable parse : string -> list string -> list string -> option expr.
Variable quote : string -> string.
Notation text := (DocSpec.text interpol parse quote).
Variable ctrl : bool.
Variable stubs : list node.
Notation docS := (DocSpec.docS interpol parse quote ctrl stubs).
Lemma text_fun : forall d e e', text d e -> text d e' -> e' = e.
Proof.
  intros d e e' (t & s & sub & -> & E & P) (t' & s' & sub' & Ed & E' & P'). rewrite E in E'. injection E' as <-.
  specialize (P [] []). specialize (P' [] []). congruence.
Qed.
Lemma plain_notext : forall n p c e, plainDoc ordinaryKey interpol n -> part n p c -> ~ text c e.
Proof.
  intros n p c e P A T. assert (PC : plainDoc ordinaryKey interpol c).
  { clear T. revert P. induction A as [n|n m k x p d V I A IH|n l i x p d V I A IH]; intro P; [exact P| |].
    - destruct (plain_map _ _ _ _ P V) as (_ & _ & PM). rewrite Forall_forall in PM. exact (IH (PM _ I)).
    - pose proof (plain_list _ _ _ _ P V) as PL. rewrite Forall_forall in PL. apply nth_error_In in I. auto. }
  destruct (text_str _ _ _ _ _ T) as (t & V & NL). apply NL. eapply plain_str; eassumption.
Qed.
(** finitely many expressions have a common bound *)
Lemma doc_bound :
  (forall p0 d d', docS p0 d d' -> forall Q : list string -> expr -> nat -> Prop, (forall p e n n', Q p e n -> (n <= n')%nat -> Q p e n') ->
     (forall p c e, part d p c -> text c e -> exists n, Q p e n) -> exists n, forall p c e, part d p c -> text c e -> Q p e n) /\
  (forall p0 m m', DocSpec.docSM interpol parse quote ctrl stubs p0 m m' -> forall Q : list string -> expr -> nat -> Prop, (forall p e n n', Q p e n -> (n <= n')%nat -> Q p e n') ->
     (forall k x p c e, In (k, x) m -> part x p c -> text c e -> exists n, Q (k :: p) e n) -> exists n, forall k x p c e, In (k, x) m -> part x p c -> text c e -> Q (k :: p) e n) /\
  (forall p0 i0 l l', DocSpec.docSL interpol parse quote ctrl stubs p0 i0 l l' -> forall i (Q : list string -> expr -> nat -> Prop), (forall p e n n', Q p e n -> (n <= n')%nat -> Q p e n') ->
     (forall k x p c e, nth_error l k = Some x -> part x p c -> text c e -> exists n, Q (idx (Z.of_nat (i + k)) :: p) e n) ->
     exists n, forall k x p c e, nth_error l k = Some x -> part x p c -> text c e -> Q (idx (Z.of_nat (i + k)) :: p) e n).
Proof.
  apply docS_mut.
  - intros p0 d d' P _ _ _ Q _ _. exists 0%nat. intros p c e A T. exfalso. exact (plain_notext _ _ _ _ P A T).
  - intros p0 d d' e T Q MQ H. destruct (H [] d e (part_here d) T) as (n & HQ). exists n. intros p c e' A T'.
    destruct T as (t & s & sub & -> & E). inversion A as [n0|n0 m k x p1 d0 V I A'|n0 l i x p1 d0 V I A']; subst; try discriminate V.
    assert (e' = e) by (eapply text_fun; [|exact T']; exists t, s, sub; auto). now subst.
  - intros p0 m m' s d' V So Ko _ IH Q MQ H.
    destruct (IH Q MQ) as (n & HN); [intros k x p c e I A T; eapply H; [|exact T]; eapply part_key; [reflexivity|exact I|exact A]|].
    exists n. intros p c e A T. inversion A as [n0|n0 m0 k x p1 d0 V0 I A'|n0 l i x p1 d0 V0 I A']; subst; try discriminate V0.
    + destruct T as (t & s1 & sub & ET & _). discriminate ET.
    + cbn in V0. injection V0 as <-. eapply HN; eassumption.
  - intros p0 l l' s d' V _ _ _ IH Q MQ H.
    destruct (IH 0%nat Q MQ) as (n & HN); [intros k x p c e I A T; eapply H; [|exact T]; eapply part_index; [reflexivity|exact I|exact A]|].
    exists n. intros p c e A T. inversion A as [n0|n0 m0 k x p1 d0 V0 I A'|n0 l0 i x p1 d0 V0 I A']; subst; try discriminate V0.
    + destruct T as (t & s1 & sub & ET & _). discriminate ET.
    + cbn in V0. injection V0 as <-. eapply (HN i); eassumption.
  - intros p0 Q _ _. exists 0%nat. intros k x p c e [].
  - intros p00 k x m x' m' _ IH1 _ IH2 Q MQ H.
    destruct (IH1 (fun p e n => Q (k :: p) e n) (fun p e n n' => MQ _ e n n')) as (n1 & H1); [intros p c e A T; eapply H; [now left|exact A|exact T]|].
    destruct (IH2 Q MQ) as (n2 & H2); [intros k0 y p c e I A T; eapply H; [right; exact I|exact A|exact T]|].
    exists (Nat.max n1 n2). intros k0 y p c e [E|I] A T; [injection E as <- <-|]; eapply MQ; [eapply H1; eassumption|lia|eapply H2; eassumption|lia].
  - intros p00 i0 i Q _ _. exists 0%nat. intros [|k] x p c e E; discriminate E.
  - intros p00 i0 x l x' l' _ IH1 _ IH2 i Q MQ H.
    destruct (IH1 (fun p e n => Q (idx (Z.of_nat i) :: p) e n) (fun p e n n' => MQ _ e n n')) as (n1 & H1);
      [intros p c e A T; specialize (H 0%nat x p c e eq_refl A T); now rewrite Nat.add_0_r in H|].
    destruct (IH2 (S i) Q MQ) as (n2 & H2); [intros k y p c e I A T; specialize (H (S k) y p c e I A T); now replace (i + S k)%nat with (S i + k)%nat in H by lia|].
    exists (Nat.max n1 n2). intros [|k] y p c e I A T.
    + injection I as <-. rewrite Nat.add_0_r. eapply MQ; [eapply H1; eassumption|lia].
    + replace (i + S k)%nat with (S i + k)%nat by lia. eapply MQ; [eapply H2; eassumption|lia].
Qed.
End Bounds.

Section C55.
Variable ST : Type.
Variable W : world ST.
Variables resetStream enter leave : ST -> ST.
Variable pushDocument : node -> ST -> ST.
Notation interpol := (w_interpol W).
Notation plain := (plainDoc ordinaryKey interpol).
Notation text := (DocSpec.text interpol (w_parse W) (w_quote W)).
Notation doc := (DocSpec.doc interpol (w_parse W) (w_quote W)).
Notation solution := (DocSpec.solution interpol text).
(** Cascade (cascade.go:33-52) of a document and stubs, without bound for depth and rounds: the fuel [f] *)
Definition process (f : nat) (outer : option binding) (D : node) (o : options) (stubs : list node) : M ST (option node * list unres) :=
  cascade ST interpol (w_ctrl W) stdReg (w_parse W) (w_quote W) (w_show W) (evalF ST W f) (w_setTag W) (controlFn ST (w_ctrl W) (evalF ST W f))
    (w_parseIssue W) resetStream enter leave pushDocument f f outer D o stubs.


Section Stubs.
Variable stubs : list node.
Notation docS := (DocSpec.docS interpol (w_parse W) (w_quote W) (w_ctrl W) stubs).
Lemma doc_part :
  (forall p0 d d', docS p0 d d' -> forall p c e, part d p c -> text c e -> exists c', part d' p c') /\
  (forall p0 m m', DocSpec.docSM interpol (w_parse W) (w_quote W) (w_ctrl W) stubs p0 m m' -> forall k x p c e, In (k, x) m -> part x p c -> text c e -> exists x' c', In (k, x') m' /\ part x' p c') /\
  (forall p0 i0 l l', DocSpec.docSL interpol (w_parse W) (w_quote W) (w_ctrl W) stubs p0 i0 l l' -> forall k x p c e, nth_error l k = Some x -> part x p c -> text c e -> exists x' c', nth_error l' k = Some x' /\ part x' p c').
Proof.
  apply docS_mut.
  - intros p0 d d' P _ _ _ p c e A T. exfalso. exact (plain_notext _ _ _ _ _ _ _ P A T).
  - intros p0 d d' e T p c e' A T'. destruct T as (t & s & sub & -> & E). inversion A as [n0|n0 m k x p1 d0 V I A'|n0 l i x p1 d0 V I A']; subst; try discriminate V. exists d'. constructor.
  - intros p0 m m' s d' V So Ko _ IH p c e A T. inversion A as [n0|n0 m0 k x p1 d0 V0 I A'|n0 l i x p1 d0 V0 I A']; subst; try discriminate V0.
    + exists d'. constructor.
    + cbn in V0. injection V0 as <-. destruct (IH k x p1 c e I A' T) as (x' & c' & I' & A2). exists c'. eapply part_key; eassumption.
  - intros p0 l l' s d' V _ _ _ IH p c e A T. inversion A as [n0|n0 m0 k x p1 d0 V0 I A'|n0 l0 i x p1 d0 V0 I A']; subst; try discriminate V0.
    + exists d'. constructor.
    + cbn in V0. injection V0 as <-. destruct (IH i x p1 c e I A' T) as (x' & c' & I' & A2). exists c'. eapply part_index; eassumption.
  - intros p0 k x p c e [].
  - intros p0 k x m x' m' _ IH1 _ IH2 k0 y p c e [E|I] A T.
    + injection E as <- <-. destruct (IH1 p c e A T) as (c' & A'). exists x', c'. split; [now left|exact A'].
    + destruct (IH2 k0 y p c e I A T) as (y' & c' & I' & A'). exists y', c'. split; [now right|exact A'].
  - intros p0 i0 [|k] x p c e E; discriminate E.
  - intros p0 i0 x l x' l' _ IH1 _ IH2 [|k] y p c e I A T.
    + injection I as <-. destruct (IH1 p c e A T) as (c' & A'). exists x', c'. split; [reflexivity|exact A'].
    + destruct (IH2 k y p c e I A T) as (y' & c' & I' & A'). exists y', c'. split; [exact I'|exact A'].
Qed.
Hypothesis SP : Forall plain stubs.
Hypothesis SF : Forall fitsN stubs.
Notation gone := (FlowDoc.gone (w_ctrl W) stubs).
Notation Lk := (lk (w_ctrl W) stubs).
Lemma gone_more : forall p r, gone p -> gone (p ++ r).
Proof. intros p r G r'. rewrite <- app_assoc. apply G. Qed.
(** the positions of the expressions *)
Lemma doc_place :
  (forall p0 d d', docS p0 d d' -> okP p0 \/ gone p0 -> forall p c e, part d p c -> text c e -> okP (p0 ++ p) \/ gone (p0 ++ p)) /\
  (forall p0 m m', DocSpec.docSM interpol (w_parse W) (w_quote W) (w_ctrl W) stubs p0 m m' -> okP p0 \/ gone p0 -> Forall (fun kv => ordinaryKey (fst kv)) m ->
     forall k x p c e, In (k, x) m -> part x p c -> text c e -> okP (p0 ++ k :: p) \/ gone (p0 ++ k :: p)) /\
  (forall p0 i0 l l', DocSpec.docSL interpol (w_parse W) (w_quote W) (w_ctrl W) stubs p0 i0 l l' -> True).
Proof.
  apply docS_mut; try (intros; exact Logic.I).
  - intros p0 d d' P _ _ _ _ p c e A T. exfalso. exact (plain_notext _ _ _ _ _ _ _ P A T).
  - intros p0 d d' e T OG p c e' A T'. destruct T as (t & s & sub & -> & E). inversion A as [n0|n0 m k x p1 d0 V I A'|n0 l i x p1 d0 V I A']; subst; try discriminate V. now rewrite app_nil_r.
  - intros p0 m m' s d' V So Ko _ IH OG p c e A T. inversion A as [n0|n0 m0 k x p1 d0 V0 I A'|n0 l i x p1 d0 V0 I A']; subst; try discriminate V0.
    + now rewrite app_nil_r.
    + cbn in V0. injection V0 as <-. eapply IH; eassumption.
  - intros p0 l l' s d' V _ U _ _ OG p c e A T. right. apply gone_more. exact (undefined_gone interpol (w_ctrl W) stubs SP p0 OG U).
  - intros p0 OG Ko k x p c e [].
  - intros p0 k x m x' m' _ IH1 _ IH2 OG Ko k0 y p c e [E|I] A T; inversion Ko as [|? ? K1 K2]; subst.
    + injection E as <- <-. change (k :: p) with ([k] ++ p). rewrite app_assoc. eapply IH1; [|exact A|exact T].
      destruct OG as [O|G]; [left; apply okP_app; [exact O|now apply ok_ordinary]|right; now apply gone_more].
    + eapply IH2; eassumption.
Qed.
Lemma clean_flags : forall i, plainInfo (cleanError i) -> f_replace i = false /\ f_flags i = 0%N.
Proof. intros i (A1 & A2 & A3 & A4 & A5 & A6 & A7 & A8). split; assumption. Qed.
Lemma plain_flags : forall i, plainInfo i -> f_replace i = false /\ f_flags i = 0%N.
Proof. intros i (A1 & A2 & A3 & A4 & A5 & A6 & A7 & A8). split; assumption. Qed.
(** the flow for the template *)
Lemma apply_solution : forall D D' rank outer, docS [] D D' -> (exists m, val D = VMap m) -> plain D' -> fitsN D' ->
  DocSpec.solutionS interpol text D D' rank outer (w_ctrl W) stubs ->
  exists N, forall f s, (N <= f)%nat -> exists R, plain R /\ sameDoc R D' /\
    nestedFlow ST interpol (w_ctrl W) stdReg (w_parse W) (w_quote W) (w_show W) (evalF ST W f) (w_setTag W) (controlFn ST (w_ctrl W) (evalF ST W f))
        (w_parseIssue W) enter leave f f outer D stubs s = Ret (R, []) (leave (enter s)).
Proof.
  intros D D' rank outer DD DM PD' FD' SOL.
  assert (KD : keyed D) by exact (proj1 (doc_keyed ST W stubs) _ _ _ DD).
  assert (PL : forall p c e, part D p c -> text c e -> okP p \/ gone p) by (intros p c e A T; exact (proj1 doc_place [] D D' DD (or_introl (Forall_nil _)) p c e A T)).
  assert (DF : forall p w, okP p \/ gone p -> definedBy (w_ctrl W) stubs p w -> Lk p = FOk w).
  { intros p w [O|G] H; [now apply (lk_defined interpol (w_ctrl W) stubs SP p w O)|]. exfalso. destruct H as (be & s & af & E & F & _).
    apply (none_undefined interpol (w_ctrl W) stubs SP p (gone_here (w_ctrl W) stubs p G) s w); [rewrite E; apply in_elt|exact F]. }
  assert (UN : forall p w, okP p \/ gone p -> undefined (w_ctrl W) stubs p -> Lk p <> FOk w).
  { intros p w OG U E. rewrite (gone_here _ _ _ (undefined_gone interpol (w_ctrl W) stubs SP p OG U)) in E. discriminate E. }
  destruct (proj1 (doc_bound interpol (w_parse W) (w_quote W) (w_ctrl W) stubs) _ _ _ DD (fun p _ n => rank p < n)%nat) as (top & TOP).
  { intros. lia. }
  { intros p c e _ _. exists (S (rank p)). lia. }
  set (good := fun N p x => (exists v S, (S x : Prop) /\ stays ST W D D' stubs rank outer N p v S /\ (gone p -> forall d', part D' p d' -> sameV v (val d'))) \/
     (DocSpec.fails text D D' rank outer p x /\ (1 <= N)%nat /\ exists w, Lk p = FOk w)).
  destruct (proj1 (doc_bound interpol (w_parse W) (w_quote W) (w_ctrl W) stubs) _ _ _ DD (fun p x n => good n p x)) as (N & GT).
  { intros p e n n' [(v & S & X & H & Y)|(H & L1 & Y)] L; [left; exists v, S; split; [exact X|]; split; [eapply stays_le; eassumption|exact Y]|right; split; [exact H|]; split; [lia|exact Y]]. }
  { intros p c e A T. destruct (proj1 doc_part _ _ _ DD p c e A T) as (c' & A').
    destruct (SOL p c e c' A T A') as [(U & v & DN & SV)|(w & W1 & W2 & [(v & DN)|FA])].
    - destruct (proj1 (denotes_settles ST W D D' PD' FD' stubs KD rank outer p) e v DN) as (n & S & X & H). exists n. left. exists v, S. split; [exact X|]. split; [exact H|].
      intros _ d' AD'. now rewrite (part_D' ST W D' PD' _ _ _ A' AD').
    - destruct (proj1 (denotes_settles ST W D D' PD' FD' stubs KD rank outer p) e v DN) as (n & S & X & H). exists n. left. exists v, S. split; [exact X|]. split; [exact H|].
      intro G. exfalso. pose proof (DF p w (PL p c e A T) W1) as E. rewrite (gone_here _ _ _ G) in E. discriminate E.
    - exists 1%nat. right. split; [exact FA|]. split; [lia|]. exists w. exact (DF p w (PL p c e A T) W1). }
  exists (Nat.max N (Nat.max (Nat.max (depth D) (depth D')) (S (S (S top))))). intros f s HF.
  destruct (loop_result ST interpol (w_ctrl W) stdReg (w_parse W) (w_quote W) (w_show W) (evalF ST W f) (w_setTag W) (controlFn ST (w_ctrl W) (evalF ST W f))
    stubs SP SF D D' PD' FD' rank (good N) GT) with (outer := outer) (top := top) (rounds := f) (fuel := f) (e := newNested stubs (src D) outer) (s := enter s)
    as (R & LR & PR & SR).
  - intros p l x [(v & S & X & H & _)|[H _]]; [destruct (H _ X) as [[] _]|inversion H].
  - intros j p b d d' e x s0 J A T A' [(v0 & S & X & H & Y)|(FA & L1 & w & LW)] E O.
    + destruct (H x X) as [_ EX].
      destruct (EX f (good N) j b s0 ltac:(lia) J E O) as (v & i & EV & PI & [(x' & -> & X' & J')|[SI DE]]); destruct (plain_flags i PI) as [R1 R2].
      * exists (VExpr x'), i, true. split; [exact EV|]. split; [exact R1|]. split; [exact R2|]. left. split; [reflexivity|]. split; [exact PI|]. exists x'. split; [reflexivity|]. split; [|exact J']. left. exists v0, S. auto.
      * exists v, i, true. split; [exact EV|]. split; [exact R1|]. split; [exact R2|]. right. left. split; [reflexivity|]. split; [exact PI|]. split; [exact SI|]. destruct DE as [PLv SV]. intro sr. split.
        -- inversion PLv as [v1 s1 L E1|l a s1 A1 PP E1|m s1 So K PP E1]; subst; [now apply PD_leaf|apply PD_list; auto|now apply PD_map].
        -- intro G. unfold sameDoc. specialize (Y G d' A'). unfold sameV, sameDoc in *. rewrite data_lit in Y. exact (eq_trans SV Y).
    + assert (exists f0, f = Datatypes.S f0) as (f0 & ->) by (destruct f; [lia|eauto]).
      destruct (fails_eval ST W D D' PD' FD' stubs KD rank outer p x (good N) j b f0 s0 FA J E O) as (v & i & ok & EV & PC & H). destruct (clean_flags i PC) as [R1 R2].
      exists v, i, ok. split; [exact EV|]. split; [exact R1|]. split; [exact R2|]. destruct H as [(-> & PI & -> & J')| ->].
      * left. split; [reflexivity|]. split; [exact PI|]. exists x. split; [reflexivity|]. split; [|exact J']. right. eauto.
      * right. right. split; [reflexivity|]. now exists w.
  - intros p d e d' w A T A' LW. destruct (SOL p d e d' A T A') as [(U & _)|(w0 & W1 & W2 & _)].
    + exfalso. exact (UN p w (PL p d e A T) U LW).
    + rewrite (DF p w0 (PL p d e A T) W1) in LW. injection LW as <-. exact W2.
  - exact TOP.
  - exact DM.
  - exact DD.
  - split; [|reflexivity]. repeat split. left. repeat split. constructor.
  - lia.
  - lia.
  - lia.
  - exists R. split; [exact PR|]. split; [exact SR|].
    unfold nestedFlow, bind, change, envFlow, bind. rewrite LR. cbn. unfold deactivateScopes. rewrite (mapBelow_plain ordinaryKey interpol _ _ PR).
    rewrite (unresolved_plain ordinaryKey interpol _ _ _ PR). reflexivity.
Qed.
End Stubs.
Lemma prep_all : forall stubs, Forall plain stubs -> Forall fitsN stubs -> Forall steadyLists stubs ->
  exists N q, Forall plain q /\ Forall fitsN q /\ prepared (w_ctrl W) stubs q /\
    forall f outer partial s, (N <= f)%nat -> exists s',
      prepareStubs ST interpol (w_ctrl W) stdReg (w_parse W) (w_quote W) (w_show W) (evalF ST W f) (w_setTag W) (controlFn ST (w_ctrl W) (evalF ST W f))
        (w_parseIssue W) resetStream enter leave f f outer partial stubs s = Ret (inl q) s'.
Proof.
  intro stubs. induction stubs as [|t r IH]; intros P Fi S0.
  - exists 0%nat, []. repeat split; try constructor. intros. eexists. reflexivity.
  - inversion P; subst. inversion Fi; subst. inversion S0; subst.
    destruct IH as [N [q [Q1 [Q2 [Q3 Q4]]]]]; try assumption.
    exists (Nat.max 3 (Nat.max N (PropFlow.need (w_ctrl W) q t))), (PropFlow.result (w_ctrl W) q t :: q).
    assert (RP : plain (PropFlow.result (w_ctrl W) q t)) by (apply PropFlow.result_plain; assumption).
    split; [|split; [|split]].
    + constructor; assumption.
    + constructor; [|assumption]. apply PropFlow.result_fits; assumption.
    + constructor; [assumption|]. eapply PropFlow.two_merges; eassumption.
    + intros f outer partial s HF. cbn [prepareStubs]. unfold bind.
      destruct (Q4 f outer partial s) as [s1 E1]; [lia|]. rewrite E1.
      unfold change. eexists. rewrite PropFlow.two_nested; try assumption; [|lia|lia].
      rewrite (dropLocal_plain ordinaryKey interpol _ RP). reflexivity.
Qed.

Notation docS stubs := (DocSpec.docS interpol (w_parse W) (w_quote W) (w_ctrl W) stubs).
Notation solutionS D D' rank outer stubs := (DocSpec.solutionS interpol text D D' rank outer (w_ctrl W) stubs).
(** A document with expressions and plain stubs.  Every stub is merged with the ones after it (as in C02); the
    plain parts of the document get the values of the stubs, the expressions are evaluated in the merged document,
    and a field whose expression is decided or fails gets the value of the stubs if they have one *)
Theorem C55_stubs : forall stubs, Forall plain stubs -> Forall fitsN stubs -> Forall steadyLists stubs ->
  exists P, prepared (w_ctrl W) stubs P /\
  forall D D' rank outer, docS P [] D D' -> (exists m, val D = VMap m) -> plain D' -> fitsN D' -> solutionS D D' rank outer P ->
  exists N, forall f o s, (N <= f)%nat -> exists R s', process f outer D o stubs s = Ret (Some R, []) s' /\ plain R /\ sameDoc R D'.
Proof.
  intros stubs H1 H2 H3. destruct (prep_all stubs H1 H2 H3) as (N & P & P1 & P2 & P3 & P4).
  exists P. split; [exact P3|]. intros D D' rank outer DD DM PD' FD' SOL. destruct (apply_solution P P1 P2 D D' rank outer DD DM PD' FD' SOL) as (N' & RA).
  exists (Nat.max N N'). intros f o s HF.
  unfold process, cascade, bind. destruct (P4 f outer (o_partial o) s) as [s1 E1]; [lia|]. rewrite E1. unfold change.
  destruct (RA f (resetStream s1) ltac:(lia)) as (R & PR & SR & NF). exists R. eexists. split; [|split; [exact PR|exact SR]].
  rewrite (PropFlow.apply_of_nested _ _ _ _ _ _ _ _ _ _ _ _ _ _ ordinaryKey ordinary_quiet _ _ _ _ _ _ _ _ _ PR NF). reflexivity.
Qed.
(** With one stub, it is used as it is *)
Theorem C55_stub : forall S D D' rank outer, plain S -> fitsN S ->
  docS [S] [] D D' -> (exists m, val D = VMap m) -> plain D' -> fitsN D' -> solutionS D D' rank outer [S] ->
  exists N, forall f o s, (N <= f)%nat -> exists R s', process f outer D o [S] s = Ret (Some R, []) s' /\ plain R /\ sameDoc R D'.
Proof.
  intros S D D' rank outer P Fi DD DM PD' FD' SOL.
  destruct (apply_solution [S] (Forall_cons _ P (Forall_nil _)) (Forall_cons _ Fi (Forall_nil _)) D D' rank outer DD DM PD' FD' SOL) as (N & RA).
  exists (Datatypes.S (Datatypes.S (Nat.max N (depth S)))). intros f o s HF.
  assert (Q : plainDoc quietKey interpol S) by (apply (plain_weaken ordinaryKey quietKey ordinary_quiet), P).
  unfold process, cascade, bind. cbn [prepareStubs]. unfold bind, ret, change.
  rewrite (PropFlow.nested_of_loop) with (K := quietKey) (r := S); [|exact Q|].
  - cbv beta iota. rewrite (dropLocal_plain _ _ _ Q).
    match goal with |- context [apply _ _ _ _ _ _ _ _ _ _ _ _ _ _ _ _ _ _ _ _ ?st] => destruct (RA f st ltac:(lia)) as (R & PR & SR & NF) end.
    exists R. eexists. split; [|split; [exact PR|exact SR]].
    rewrite (PropFlow.apply_of_nested _ _ _ _ _ _ _ _ _ _ _ _ _ _ ordinaryKey ordinary_quiet _ _ _ _ _ _ _ _ _ PR NF). reflexivity.
  - intro s1. apply PropFlow.alone_loop; try assumption; lia.
Qed.
Lemma none_at : forall p, undefined (w_ctrl W) [] p.
Proof. intros p s v []. Qed.
Lemma merges_none : forall d so p d', plain d -> sameDoc d d' -> merges (w_ctrl W) [] so p d d'.
Proof.
  induction d as [v a s t r IH] using node_ind'. intros so p d' P Y. destruct (leaf_dec v) as [L|[[l ->]|[m ->]]].
  - apply M_keep.
    + intros l E. cbn in E. subst v. exact (proj1 L l eq_refl).
    + intros m E. cbn in E. subst v. exact (proj2 L m eq_refl).
    + intros _. apply none_at.
    + destruct d' as [v' a' s' t' r']. unfold sameDoc in Y. cbn [data] in Y. injection Y as Y. cbn [val].
      assert (LF : leaf interpol v) by (inversion P as [? ? LF E1|? ? ? ? ? E1|? ? ? ? ? E1]; subst; [exact LF|exfalso; exact (proj1 L _ eq_refl)|exfalso; exact (proj2 L _ eq_refl)]).
      inversion LF; subst; destruct v'; try discriminate Y; congruence.
  - pose proof (plain_list _ _ _ l P eq_refl) as PL. destruct (same_list d' l (mkNode (VList l) a s t r) eq_refl (eq_sym Y)) as (l' & V' & M).
    eapply M_list; [reflexivity|exact V'|apply (stepsL_spec interpol), PL|]. cbn in IH. generalize (uniq l []) as u. generalize 0%Z as i. clear P Y V'. revert l' M.
    induction l as [|x l IHl]; intros [|x' l'] M i u; try discriminate M; [constructor|]. cbn [map] in M. injection M as M1 M2. inversion IH; subst. inversion PL; subst.
    cbn [stepsL]. constructor; [|now apply IHl]. match goal with H : forall so p d', _ |- _ => apply H end; [assumption|]. unfold sameDoc. now rewrite M1.
  - destruct (plain_map _ _ _ m P eq_refl) as (_ & _ & PM). destruct (same_map d' m (mkNode (VMap m) a s t r) eq_refl (eq_sym Y)) as (m' & V' & F).
    eapply M_map; [reflexivity|exact V'|]. cbn in IH. clear P Y V'. revert IH PM. induction F as [|[k' x'] [k x] m' m [E1 E2] F IHm]; intros IH PM; [constructor|].
    inversion IH; subst. inversion PM; subst. cbn [fst snd] in *. constructor; [|now apply IHm]. split; [exact E1|]. cbn [snd]. match goal with H : forall so p d', _ |- _ => apply H end; [assumption|].
    unfold sameDoc in *. now symmetry.
Qed.
Lemma doc_alone : (forall d d', doc d d' -> forall p, docS [] p d d') /\ (forall m m', DocSpec.docM interpol (w_parse W) (w_quote W) m m' -> forall p, DocSpec.docSM interpol (w_parse W) (w_quote W) (w_ctrl W) [] p m m') /\
  (forall l l', DocSpec.docL interpol (w_parse W) (w_quote W) l l' -> forall p i, DocSpec.docSL interpol (w_parse W) (w_quote W) (w_ctrl W) [] p i l l').
Proof.
  apply doc_mut.
  - intros d d' P F Y p. apply ds_plain; [exact P|exact F|right; apply none_at|now apply merges_none].
  - intros d d' e T p. now apply (ds_text _ _ _ _ _ p d d' e).
  - intros m m' s d' V So Ko _ IH p. eapply ds_map; [exact V|exact So|exact Ko|apply IH].
  - intros l l' s d' V St _ IH p. eapply ds_list; [exact V|exact St|apply none_at|apply IH].
  - intros p. constructor.
  - intros k x m x' m' _ IH1 _ IH2 p. constructor; auto.
  - intros p i. constructor.
  - intros x l x' l' _ IH1 _ IH2 p i. constructor; auto.
Qed.
(** the processing of a document succeeds and gives the solution *)
Theorem C55_document : forall D D' rank outer, doc D D' -> (exists m, val D = VMap m) -> plain D' -> fitsN D' -> solution D D' rank outer ->
  exists N, forall f o s, (N <= f)%nat -> exists R s', process f outer D o [] s = Ret (Some R, []) s' /\ plain R /\ sameDoc R D'.
Proof.
  intros D D' rank outer DD DM PD' FD' SOL.
  destruct (apply_solution [] (Forall_nil _) (Forall_nil _) D D' rank outer (proj1 doc_alone D D' DD []) DM PD' FD') as (N & RA).
  { intros p d e d' A T A'. left. split; [apply none_at|]. eapply SOL; eassumption. }
  exists N. intros f o s HF. destruct (RA f (resetStream s) HF) as (R & PR & SR & NF). exists R. eexists. split; [|split; [exact PR|exact SR]].
  unfold process, cascade, bind, prepareStubs, ret, change.
  rewrite (PropFlow.apply_of_nested _ _ _ _ _ _ _ _ _ _ _ _ _ _ ordinaryKey ordinary_quiet _ _ _ _ _ _ _ _ _ PR NF). reflexivity.
Qed.
(** there is only one solution *)
Theorem C55_unique : forall D D1 D2 rank1 rank2 outer, doc D D1 -> doc D D2 -> (exists m, val D = VMap m) -> plain D1 -> plain D2 -> fitsN D1 -> fitsN D2 ->
  solution D D1 rank1 outer -> solution D D2 rank2 outer -> inhabited ST -> sameDoc D1 D2.
Proof.
  intros D D1 D2 r1 r2 outer H1 H2 DM P1 P2 F1 F2 S1 S2 [s].
  destruct (C55_document D D1 r1 outer H1 DM P1 F1 S1) as (N1 & K1). destruct (C55_document D D2 r2 outer H2 DM P2 F2 S2) as (N2 & K2).
  set (o := mkOpts false false false). destruct (K1 (Nat.max N1 N2) o s ltac:(lia)) as (R1 & s1 & E1 & _ & Y1). destruct (K2 (Nat.max N1 N2) o s ltac:(lia)) as (R2 & s2 & E2 & _ & Y2).
  rewrite E1 in E2. injection E2 as <- _. unfold sameDoc in *. congruence.
Qed.
End C55.

(** ** Example *)
Section Check.
Fixpoint nthIdx (i : nat) (l : list node) (k : string) : option node :=
  match l with [] => None | x :: r => if String.eqb k (idx (Z.of_nat i)) then Some x else nthIdx (S i) r k end.
Fixpoint atp (n : node) (p : list string) : option node :=
  match p with [] => Some n | k :: r =>
    match val n with
    | VMap m => match mget k m with Some c => atp c r | None => None end
    | VList l => match nthIdx 0 l k with Some c => atp c r | None => None end
    | _ => None end end.
Lemma nthIdx_nth : forall l i k x, nthIdx i l k = Some x -> exists j, nth_error l j = Some x /\ k = idx (Z.of_nat (i + j)).
Proof.
  induction l as [|y l IH]; intros i k x H; [discriminate|]. cbn [nthIdx] in H. destruct (String.eqb_spec k (idx (Z.of_nat i))) as [->|_].
  - injection H as <-. exists 0%nat. rewrite Nat.add_0_r. auto.
  - destruct (IH _ _ _ H) as (j & H1 & ->). exists (S j). replace (i + S j)%nat with (S i + j)%nat by lia. auto.
Qed.
Lemma nth_nthIdx : forall l i j x, nth_error l j = Some x -> nthIdx i l (idx (Z.of_nat (i + j))) = Some x.
Proof.
  induction l as [|y l IH]; intros i [|j] x H; try discriminate H; cbn [nthIdx].
  - injection H as <-. now rewrite Nat.add_0_r, String.eqb_refl.
  - destruct (String.eqb_spec (idx (Z.of_nat (i + S j))) (idx (Z.of_nat i))) as [E|_]; [apply idx_nat in E; lia|].
    replace (i + S j)%nat with (S i + j)%nat by lia. now apply IH.
Qed.
Lemma atp_part : forall p n c, atp n p = Some c -> part n p c.
Proof.
  induction p as [|k p IH]; intros n c H; cbn [atp] in H; [injection H as <-; constructor|]. destruct (val n) eqn:V; try discriminate H.
  - destruct (nthIdx 0 l k) as [x|] eqn:E; [|discriminate H]. destruct (nthIdx_nth _ _ _ _ E) as (j & H1 & ->). eapply part_index; [exact V|exact H1|auto].
  - destruct (mget k m) as [x|] eqn:E; [|discriminate H]. eapply part_key; [exact V|apply mget_In, E|auto].
Qed.
Lemma part_atp : forall n p c, part n p c -> keyed n -> atp n p = Some c.
Proof.
  induction 1 as [n|n m k c p d V I A IH|n l i c p d V I A IH]; intro K; [reflexivity| |]; destruct K as [n KM KL]; cbn [atp]; rewrite V.
  - destruct (KM m V) as [ND KF]. rewrite (In_mget k c m ND I). rewrite Forall_forall in KF. exact (IH (KF _ I)).
  - pose proof (nth_nthIdx l 0 i c I) as E. cbn [Nat.add] in E. rewrite E. specialize (KL l V). rewrite Forall_forall in KL. apply nth_error_In in I. auto.
Qed.
(** the texts of a document *)
Fixpoint strs (n : node) : list (list string * node) :=
  match n with mkNode v _ _ _ _ =>
    match v with
    | VStr _ => [([], n)]
    | VMap m => (fix go m := match m with [] => [] | (k, c) :: r => map (fun x => (k :: fst x, snd x)) (strs c) ++ go r end) m
    | VList l => (fix go i l := match l with [] => [] | c :: r => map (fun x => (idx (Z.of_nat i) :: fst x, snd x)) (strs c) ++ go (S i) r end) 0%nat l
    | _ => [] end end.
Lemma strs_all : forall n p c t, part n p c -> val c = VStr t -> In (p, c) (strs n).
Proof.
  intros n p c t A V. induction A as [[v a s tt r]|[v a s tt r] m k c p d V0 I A IH|[v a s tt r] l i c p d V0 I A IH]; cbn [val] in *; subst v; cbn [strs].
  - now left.
  - specialize (IH V). induction m as [|[k0 y] m IHm]; [destruct I|]. apply in_or_app. destruct I as [E|I]; [injection E as -> ->; left|right; auto].
    apply (in_map (fun x => (k :: fst x, snd x))) in IH. exact IH.
  - specialize (IH V). enough (G : forall j, In (idx (Z.of_nat (j + i)) :: p, d) ((fix go i l := match l with [] => [] | c :: r => map (fun x => (idx (Z.of_nat i) :: fst x, snd x)) (strs c) ++ go (S i) r end) j l)) by exact (G 0%nat).
    revert i I. induction l as [|y l IHl]; intros [|i] I j; try discriminate I; apply in_or_app.
    + injection I as ->. left. rewrite Nat.add_0_r. apply (in_map (fun x => (idx (Z.of_nat j) :: fst x, snd x))) in IH. exact IH.
    + right. replace (j + S i)%nat with (S j + i)%nat by lia. now apply IHl.
Qed.
End Check.

Definition tblD (s : string) : option expr := let s := trimSpace s in
  if String.eqb s "b + 1" then Some (EAdd (ERef "" ["b"]) (EInt 1)) else
  if String.eqb s "c.x * 2" then Some (EMul (ERef "" ["c"; "x"]) (EInt 2)) else
  if String.eqb s "a" then Some (ERef "" ["a"]) else
  if String.eqb s "c.l.n.v" then Some (ERef "" ["c"; "l"; "n"; "v"]) else
  if String.eqb s "nope || c.y || b > 5 ? [ x, ""z"" ] :0" then
    Some (EOr (ERef "" ["nope"]) (EOr (ERef "" ["c"; "y"]) (ECond (ECmp (ERef "" ["b"]) ">" (EInt 5)) (EList [ERef "" ["x"]; EStr "z"]) (EInt 0)))) else None.
Definition WD := world0 tblD.
Definition nlD (vs : list value) : value := VList (map nd vs).
Definition nmD (m : list (string * value)) : value := VMap (map (fun kv => (fst kv, nd (snd kv))) m).
Definition build (a b v d e : value) : node :=
  nd (nmD [("a", a); ("b", b); ("c", nmD [("l", nlD [nmD [("name", VStr "n"); ("v", v)]; VInt 7]); ("x", VInt 3)]); ("d", d); ("m", nmD [("e", e); ("x", VStr "y")])]).
Definition exD : node := build (VStr "(( b + 1 ))") (VStr "(( c.x * 2 ))") (VStr "(( a ))") (VStr "(( c.l.n.v ))") (VStr "(( nope || c.y || b > 5 ? [ x, ""z"" ] :0 ))").
Definition exS : node := build (VInt 7) (VInt 6) (VInt 7) (VInt 7) (nlD [VStr "y"; VStr "z"]).
Definition exRank (p : list string) : nat :=
  match p with ["b"] => 0%nat | ["a"] => 1%nat | ["c"; _; _; _] => 2%nat | ["d"] => 3%nat | ["m"; "e"] => 4%nat | _ => 9%nat end.
Example ex_runs : exists R s, process _ WD id id id (fun _ => id) 30 None exD (mkOpts false false false) [] st0 = Ret (Some R, []) s /\ sameDoc R exS.
Proof. do 2 eexists. split; [vm_compute; reflexivity|vm_compute; reflexivity]. Qed.
Notation textD := (DocSpec.text true (w_parse WD) (w_quote WD)).
Notation docD := (DocSpec.doc true (w_parse WD) (w_quote WD)).
Ltac plainly := repeat (first [apply PD_list; [auto|] | apply PD_leaf; constructor; apply PropFlow2.lit_short | apply PD_leaf; constructor
           | apply PD_map; [cbn; repeat split; intros k' H; repeat (destruct H as [<-|H]; [reflexivity|]); destruct H
                           | repeat apply Forall_cons; try apply Forall_nil; apply PropFlow2.ord; reflexivity |]
           | apply Forall_cons | apply Forall_nil ]).
Ltac isText := eexists _, _, _; split; [reflexivity|]; split; [vm_compute; reflexivity|intros; reflexivity].
Lemma exS_plain : plainDoc ordinaryKey true exS.
Proof. plainly. Qed.
Lemma exS_fits : fitsN exS.
Proof. cbn. unfold max64. repeat split; lia. Qed.
Ltac notText := match goal with T : textD _ _ |- _ => destruct T as (tt & ss & sub & E & EM & _); injection E as E _; subst; vm_compute in EM; discriminate EM end.
Ltac docly := first
  [ eapply doc_text; isText
  | apply doc_plain; [plainly|cbn; unfold max64; repeat split; lia|reflexivity]
  | eapply doc_map; [reflexivity|cbn; repeat split; intros k' H; repeat (destruct H as [<-|H]; [reflexivity|]); destruct H
      |repeat apply Forall_cons; try apply Forall_nil; apply PropFlow2.ord; reflexivity|repeat (apply docM_cons; [docly|]); apply docM_nil]
  | eapply doc_list; [reflexivity|repeat apply Forall_cons; try apply Forall_nil; intros m c e V I; try discriminate V; injection V as <-; intro T;
      repeat (destruct I as [I|I]; [injection I; intros; try discriminate; subst; notText|]); destruct I
      |repeat (apply docL_cons; [docly|]); apply docL_nil] ].
Lemma exD_doc : docD exD exS.
Proof. docly. Qed.
Lemma exD_texts : forall p d e, part exD p d -> textD d e ->
  In (p, e) [(["a"], EAdd (ERef "" ["b"]) (EInt 1)); (["b"], EMul (ERef "" ["c"; "x"]) (EInt 2)); (["c"; "l"; "[0]"; "v"], ERef "" ["a"]); (["d"], ERef "" ["c"; "l"; "n"; "v"]);
    (["m"; "e"], EOr (ERef "" ["nope"]) (EOr (ERef "" ["c"; "y"]) (ECond (ECmp (ERef "" ["b"]) ">" (EInt 5)) (EList [ERef "" ["x"]; EStr "z"]) (EInt 0))))].
Proof.
  intros p d e A T. pose proof T as T0. destruct T0 as (t & s & sub & E & EM & P). assert (V : val d = VStr t) by now subst d.
  pose proof (strs_all _ _ _ _ A V) as I. specialize (P [] []). change (strs exD) with ltac:(let x := eval vm_compute in (strs exD) in exact x) in I.
  repeat (destruct I as [I|I]; [injection I as <- <-; injection E as <- <-; vm_compute in EM; first [discriminate EM|injection EM as <-; vm_compute in P; injection P as <-; cbn [In]; tauto]|]). destruct I.
Qed.
Definition exD_keyed : keyed exD := proj1 (doc_keyed _ WD []) _ _ _ (proj1 (doc_alone _ WD) _ _ exD_doc []).
Definition exS_keyed : keyed exS := plain_keyed _ WD _ exS_plain.
Lemma settled_ok : forall p t, forallb (fun x => if list_eq_dec string_dec (fst x) (firstn (length (fst x)) t) then (exRank (fst x) <? exRank p)%nat else
    if list_eq_dec string_dec t (firstn (length t) (fst x)) then (exRank (fst x) <? exRank p)%nat else true)
  [(["a"], tt); (["b"], tt); (["c"; "l"; "[0]"; "v"], tt); (["d"], tt); (["m"; "e"], tt)] = true -> settledBefore textD exD exRank p t.
Proof.
  intros p t F. rewrite forallb_forall in F.
  assert (K : forall q u e, part exD q u -> textD u e -> In (q, tt) [(["a"], tt); (["b"], tt); (["c"; "l"; "[0]"; "v"], tt); (["d"], tt); (["m"; "e"], tt)]).
  { intros q u e A T. pose proof (exD_texts _ _ _ A T) as I. cbn [In] in I |- *. repeat (destruct I as [I|I]; [injection I as <- <-; tauto|]). destruct I. }
  split.
  - intros q u e r A T ->. specialize (F _ (K _ _ _ A T)). cbn [fst] in F.
    destruct (list_eq_dec string_dec q (firstn (length q) (q ++ r))) as [_|N]; [now apply Nat.ltb_lt|]. exfalso. apply N. rewrite firstn_app, firstn_all, Nat.sub_diag. cbn. now rewrite app_nil_r.
  - intros q u e r A T ->. specialize (F _ (K _ _ _ A T)). cbn [fst] in F.
    destruct (list_eq_dec string_dec (t ++ r) _) as [_|_]; [now apply Nat.ltb_lt|].
    destruct (list_eq_dec string_dec t (firstn (length t) (t ++ r))) as [_|N]; [now apply Nat.ltb_lt|]. exfalso. apply N. rewrite firstn_app, firstn_all, Nat.sub_diag. cbn. now rewrite app_nil_r.
Qed.
Ltac splitup E := match type of E with
  | ?x :: ?l = ?q ++ ?k :: ?r => destruct q as [|? q]; cbn [app] in E; [injection E as <- <-|injection E as <- E; splitup E]
  | [] = ?q ++ _ => destruct q; discriminate E end.
Ltac encloses := split;
  [ eexists _, _, _, _; split; [reflexivity|]; split; [apply atp_part; vm_compute; reflexivity|]; split; [reflexivity|cbn; tauto]
  | let q := fresh "q" in let E := fresh "E" in let L := fresh "L" in let A := fresh "A" in let V := fresh "V" in intros q ? ? ? ? E L A V; splitup E; cbn in L; try lia;
    apply (fun A => part_atp _ _ _ A exD_keyed) in A; vm_compute in A; injection A as <-; cbn in V; try discriminate V; injection V as <-; cbn; intros H; repeat (destruct H as [H|H]; [discriminate H|]); exact H ].
Ltac nm1 := split; [repeat split; discriminate|discriminate].
Ltac here := apply atp_part; vm_compute; reflexivity.
Lemma notIndex : forall c st z, c <> "["%char -> ~ index_step (String c st) z.
Proof. intros c st z N (d & E & _). injection E as E _. contradiction. Qed.
Example ex_solution : DocSpec.solution true textD exD exS exRank None.
Proof.
  intros p d e d' A T A'. pose proof (exD_texts _ _ _ A T) as I. cbn [In] in I. apply (fun A => part_atp _ _ _ A exS_keyed) in A'.
  destruct I as [I|[I|[I|[I|[I|[]]]]]]; injection I as <- <-; vm_compute in A'; injection A' as <-.
  - exists (VInt 7). split; [|reflexivity]. apply (dn_add _ _ _ _ _ _ _ _ _ 6 1); [|constructor].
    apply (dn_ref _ _ exD exS exRank None ["a"] "b" [] [] (nd (VInt 6)) [] (nd (VInt 6))); [nm1|encloses|here|constructor|apply settled_ok; reflexivity].
  - exists (VInt 6). split; [|reflexivity]. apply (dn_mul _ _ _ _ _ _ _ _ _ 3 2); [|constructor].
    eapply (dn_ref _ _ exD exS exRank None ["b"] "c" ["x"] [] _ ["x"] (nd (VInt 3))); [nm1|encloses|here| |apply settled_ok; reflexivity].
    eapply leads_key; [reflexivity|cbn; tauto|constructor].
  - exists (VInt 7). split; [|reflexivity].
    apply (dn_ref _ _ exD exS exRank None _ "a" [] [] (nd (VInt 7)) [] (nd (VInt 7))); [nm1|encloses|here|constructor|apply settled_ok; reflexivity].
  - exists (VInt 7). split; [|reflexivity].
    eapply (dn_ref _ _ exD exS exRank None _ "c" ["l"; "n"; "v"] [] _ ["l"; "[0]"; "v"] (nd (VInt 7))); [nm1|encloses|here| |apply settled_ok; reflexivity].
    eapply leads_key; [reflexivity|cbn; tauto|]. change "[0]" with (idx (Z.of_nat 0)). eapply leads_name; [reflexivity|intro z; apply notIndex; discriminate| |reflexivity| | | |].
    + intros [|c [|c' a]] b E; discriminate E.
    + eexists _, _. split; [reflexivity|]. split; [now left|reflexivity].
    + intros k z L. lia.
    + intros d0 e0 A0 T0. apply (exD_texts _ _ _ A0) in T0. cbn [In] in T0. repeat (destruct T0 as [T0|T0]; [discriminate T0|]). exact T0.
    + eapply leads_key; [reflexivity|cbn; tauto|constructor].
  - exists (VList (map lit [VStr "y"; VStr "z"])). split; [|reflexivity].
    apply dn_default; [apply fl_unknown; [nm1|]|].
    + split; [|reflexivity]. intros q ? ? ? ? E A0 V. splitup E; apply (fun A => part_atp _ _ _ A exD_keyed) in A0; vm_compute in A0; injection A0 as <-; cbn in V; injection V as <-; cbn; intros H; repeat (destruct H as [H|H]; [discriminate H|]); exact H.
    + apply dn_default.
      * eapply (fl_missing _ exD exS exRank None _ "c" [] "y" [] [] _ []); [nm1|encloses|here|constructor|reflexivity| |apply settled_ok; reflexivity].
        cbn. intros H; repeat (destruct H as [H|H]; [discriminate H|]); exact H.
      * apply (dn_true _ _ _ _ _ _ _ _ _ _ (VBool true)); [|constructor|].
        -- apply (dn_cmp _ _ _ _ _ _ _ _ ">" _ 6 5); [|constructor|reflexivity].
           apply (dn_ref _ _ exD exS exRank None _ "b" [] [] (nd (VInt 6)) [] (nd (VInt 6))); [nm1|encloses|here|constructor|apply settled_ok; reflexivity].
        -- apply dn_list. constructor; [|constructor; [|constructor]].
           ++ apply (dn_ref _ _ exD exS exRank None _ "x" [] ["m"] (nd (VStr "y")) [] (nd (VStr "y"))); [nm1|encloses|here|constructor|apply settled_ok; reflexivity].
           ++ constructor. apply PropFlow2.lit_short.
Qed.
(** all the hypotheses of [C55_document] *)
Example ex_hyp : docD exD exS /\ (exists m, val exD = VMap m) /\ plainDoc ordinaryKey true exS /\ fitsN exS /\ DocSpec.solution true textD exD exS exRank None.
Proof. split; [exact exD_doc|]. split; [eexists; reflexivity|]. split; [exact exS_plain|]. split; [exact exS_fits|exact ex_solution]. Qed.

(** ** Example with a stub: a plain field, a decided expression and a failing expression are overridden *)
Definition tblE (s : string) : option expr := let s := trimSpace s in
  if String.eqb s "b + 1" then Some (EAdd (ERef "" ["b"]) (EInt 1)) else
  if String.eqb s "nope" then Some (ERef "" ["nope"]) else
  if String.eqb s "a" then Some (ERef "" ["a"]) else
  if String.eqb s "c + 1" then Some (EAdd (ERef "" ["c"]) (EInt 1)) else None.
Definition WE := world0 tblE.
Definition buildE (a b c d l e : value) : node := nd (nmD [("a", a); ("b", b); ("c", c); ("d", d); ("l", nlD [l; VInt 1]); ("m", nmD [("e", e); ("x", VStr "y")])]).
Definition exE : node := buildE (VStr "(( b + 1 ))") (VInt 3) (VStr "(( nope ))") (VStr "(( a ))") (VStr "(( a ))") (VStr "(( c + 1 ))").
Definition exStub : node := nd (nmD [("b", VInt 5); ("c", VInt 9); ("d", VInt 20); ("z", VInt 1)]).
Definition exT : node := buildE (VInt 6) (VInt 5) (VInt 9) (VInt 20) (VInt 6) (VInt 10).
Definition exRankE (p : list string) : nat :=
  match p with ["a"] => 0%nat | ["c"] => 1%nat | ["d"] => 2%nat | ["l"; _] => 2%nat | ["m"; "e"] => 3%nat | _ => 9%nat end.
Example exE_runs : exists R s, process _ WE id id id (fun _ => id) 30 None exE (mkOpts false false false) [exStub] st0 = Ret (Some R, []) s /\ sameDoc R exT.
Proof. do 2 eexists. split; [vm_compute; reflexivity|vm_compute; reflexivity]. Qed.
Notation textE := (DocSpec.text true (w_parse WE) (w_quote WE)).
Notation docE := (DocSpec.docS true (w_parse WE) (w_quote WE) (w_ctrl WE) [exStub]).
Ltac noStub := intros s v [<-|[]] H; vm_compute in H; discriminate H.
Ltac isStub := exists [], exStub, []; split; [reflexivity|]; split; [vm_compute; reflexivity|intros ? ? []].
Lemma exT_plain : plainDoc ordinaryKey true exT.
Proof. plainly. Qed.
Lemma exStub_plain : plainDoc ordinaryKey true exStub.
Proof. plainly. Qed.
Lemma exE_doc : docE [] exE exT.
Proof.
  eapply ds_map; [reflexivity|cbn; repeat split; intros k' H; repeat (destruct H as [<-|H]; [reflexivity|]); destruct H
      |repeat apply Forall_cons; try apply Forall_nil; apply PropFlow2.ord; reflexivity|].
  apply dsM_cons; [eapply ds_text; isText|]. apply dsM_cons; [|apply dsM_cons; [eapply ds_text; isText|apply dsM_cons; [eapply ds_text; isText|apply dsM_cons; [|apply dsM_cons; [|apply dsM_nil]]]]].
  - apply ds_plain; [plainly|cbn; unfold max64; repeat split; lia|left; apply SL_leaf; discriminate|]. eapply M_take; [discriminate|discriminate|isStub|reflexivity].
  - eapply ds_list; [reflexivity| |noStub|].
    + repeat apply Forall_cons; try apply Forall_nil; intros m c e V I; discriminate V.
    + apply dsL_cons; [eapply ds_text; isText|]. apply dsL_cons; [|apply dsL_nil].
      apply ds_plain; [plainly|cbn; unfold max64; repeat split; lia|left; apply SL_leaf; discriminate|]. eapply M_keep; [discriminate|discriminate|intros _; noStub|reflexivity].
  - eapply ds_map; [reflexivity|cbn; repeat split; intros k' H; repeat (destruct H as [<-|H]; [reflexivity|]); destruct H
      |repeat apply Forall_cons; try apply Forall_nil; apply PropFlow2.ord; reflexivity|].
    apply dsM_cons; [eapply ds_text; isText|]. apply dsM_cons; [|apply dsM_nil].
    apply ds_plain; [plainly|cbn; unfold max64; repeat split; lia|left; apply SL_leaf; discriminate|]. eapply M_keep; [discriminate|discriminate|intros _; noStub|reflexivity].
Qed.
Lemma exE_texts : forall p d e, part exE p d -> textE d e ->
  In (p, e) [(["a"], EAdd (ERef "" ["b"]) (EInt 1)); (["c"], ERef "" ["nope"]); (["d"], ERef "" ["a"]); (["l"; "[0]"], ERef "" ["a"]); (["m"; "e"], EAdd (ERef "" ["c"]) (EInt 1))].
Proof.
  intros p d e A T. pose proof T as T0. destruct T0 as (t & s & sub & E & EM & P). assert (V : val d = VStr t) by now subst d.
  pose proof (strs_all _ _ _ _ A V) as I. specialize (P [] []). change (strs exE) with ltac:(let x := eval vm_compute in (strs exE) in exact x) in I.
  repeat (destruct I as [I|I]; [injection I as <- <-; injection E as <- <-; vm_compute in EM; first [discriminate EM|injection EM as <-; vm_compute in P; injection P as <-; cbn [In]; tauto]|]). destruct I.
Qed.
Definition exE_keyed : keyed exE := proj1 (doc_keyed _ WE [exStub]) _ _ _ exE_doc.
Definition exT_keyed : keyed exT := plain_keyed _ WE _ exT_plain.
Lemma settledE : forall p t, forallb (fun x => if list_eq_dec string_dec (fst x) (firstn (length (fst x)) t) then (exRankE (fst x) <? exRankE p)%nat else
    if list_eq_dec string_dec t (firstn (length t) (fst x)) then (exRankE (fst x) <? exRankE p)%nat else true)
  [(["a"], tt); (["c"], tt); (["d"], tt); (["l"; "[0]"], tt); (["m"; "e"], tt)] = true -> settledBefore textE exE exRankE p t.
Proof.
  intros p t F. rewrite forallb_forall in F.
  assert (K : forall q u e, part exE q u -> textE u e -> In (q, tt) [(["a"], tt); (["c"], tt); (["d"], tt); (["l"; "[0]"], tt); (["m"; "e"], tt)]).
  { intros q u e A T. pose proof (exE_texts _ _ _ A T) as I. cbn [In] in I |- *. repeat (destruct I as [I|I]; [injection I as <- <-; tauto|]). destruct I. }
  split.
  - intros q u e r A T ->. specialize (F _ (K _ _ _ A T)). cbn [fst] in F.
    destruct (list_eq_dec string_dec q (firstn (length q) (q ++ r))) as [_|N]; [now apply Nat.ltb_lt|]. exfalso. apply N. rewrite firstn_app, firstn_all, Nat.sub_diag. cbn. now rewrite app_nil_r.
  - intros q u e r A T ->. specialize (F _ (K _ _ _ A T)). cbn [fst] in F.
    destruct (list_eq_dec string_dec (t ++ r) _) as [_|_]; [now apply Nat.ltb_lt|].
    destruct (list_eq_dec string_dec t (firstn (length t) (t ++ r))) as [_|N]; [now apply Nat.ltb_lt|]. exfalso. apply N. rewrite firstn_app, firstn_all, Nat.sub_diag. cbn. now rewrite app_nil_r.
Qed.
Ltac enclosesE := split;
  [ eexists _, _, _, _; split; [reflexivity|]; split; [apply atp_part; vm_compute; reflexivity|]; split; [reflexivity|cbn; tauto]
  | let q := fresh "q" in let E := fresh "E" in let L := fresh "L" in let A := fresh "A" in let V := fresh "V" in intros q ? ? ? ? E L A V; splitup E; cbn in L; try lia;
    apply (fun A => part_atp _ _ _ A exE_keyed) in A; vm_compute in A; injection A as <-; cbn in V; try discriminate V; injection V as <-; cbn; intros H; repeat (destruct H as [H|H]; [discriminate H|]); exact H ].
Example exE_solution : DocSpec.solutionS true textE exE exT exRankE None (w_ctrl WE) [exStub].
Proof.
  intros p d e d' A T A'. pose proof (exE_texts _ _ _ A T) as I. cbn [In] in I. apply (fun A => part_atp _ _ _ A exT_keyed) in A'.
  destruct I as [I|[I|[I|[I|[I|[]]]]]]; injection I as <- <-; vm_compute in A'; injection A' as <-.
  - left. split; [noStub|]. exists (VInt 6). split; [|reflexivity]. apply (dn_add _ _ _ _ _ _ _ _ _ 5 1); [|constructor].
    apply (dn_ref _ _ exE exT exRankE None ["a"] "b" [] [] (nd (VInt 5)) [] (nd (VInt 5))); [nm1|enclosesE|here|constructor|apply settledE; reflexivity].
  - right. exists (nd (VInt 9)). split; [isStub|]. split; [reflexivity|]. right. apply fl_unknown; [nm1|]. split; [|reflexivity].
    intros q ? ? ? ? E A0 V. splitup E; apply (fun A => part_atp _ _ _ A exE_keyed) in A0; vm_compute in A0; injection A0 as <-; cbn in V; injection V as <-; cbn; intros H; repeat (destruct H as [H|H]; [discriminate H|]); exact H.
  - right. exists (nd (VInt 20)). split; [isStub|]. split; [reflexivity|]. left. exists (VInt 6).
    apply (dn_ref _ _ exE exT exRankE None ["d"] "a" [] [] (nd (VInt 6)) [] (nd (VInt 6))); [nm1|enclosesE|here|constructor|apply settledE; reflexivity].
  - left. split; [noStub|]. exists (VInt 6). split; [|reflexivity].
    apply (dn_ref _ _ exE exT exRankE None _ "a" [] [] (nd (VInt 6)) [] (nd (VInt 6))); [nm1|enclosesE|here|constructor|apply settledE; reflexivity].
  - left. split; [noStub|]. exists (VInt 10). split; [|reflexivity]. apply (dn_add _ _ _ _ _ _ _ _ _ 9 1); [|constructor].
    apply (dn_ref _ _ exE exT exRankE None _ "c" [] [] (nd (VInt 9)) [] (nd (VInt 9))); [nm1|enclosesE|here|constructor|apply settledE; reflexivity].
Qed.
(** all the hypotheses of [C55_stub] *)
Example exE_hyp : plainDoc ordinaryKey true exStub /\ fitsN exStub /\ docE [] exE exT /\ (exists m, val exE = VMap m) /\ plainDoc ordinaryKey true exT /\ fitsN exT /\
  DocSpec.solutionS true textE exE exT exRankE None (w_ctrl WE) [exStub].
Proof.
  split; [exact exStub_plain|]. split; [cbn; unfold max64; repeat split; lia|]. split; [exact exE_doc|]. split; [eexists; reflexivity|]. split; [exact exT_plain|].
  split; [cbn; unfold max64; repeat split; lia|exact exE_solution].
Qed.

(** A stub does not give a field its value while the expression of the field is undecided: two fields that
    refer to each other remain unresolved although the stub has a value for one of them *)
Definition tblY (s : string) : option expr := let s := trimSpace s in
  if String.eqb s "b" then Some (ERef "" ["b"]) else if String.eqb s "a" then Some (ERef "" ["a"]) else None.
Definition exY : node := nd (nmD [("a", VStr "(( b ))"); ("b", VStr "(( a ))")]).
Definition exYStub : node := nd (nmD [("a", VInt 1)]).
Theorem C02_cycle_refuted : exists f R u s, definedBy true [exYStub] ["a"] (nd (VInt 1)) /\
  process _ (world0 tblY) id id id (fun _ => id) f None exY (mkOpts false false false) [exYStub] st0 = Ret (Some R, u) s /\
  map u_ctx u = [["a"]; ["b"]] /\ exists m e, val R = VMap m /\ In ("a", e) m /\ val e = VExpr (ERef "" ["b"]).
Proof.
  exists 30%nat. do 3 eexists. split; [exists [], exYStub, []; split; [reflexivity|]; split; [vm_compute; reflexivity|intros ? ? []]|].
  split; [vm_compute; reflexivity|]. split; [vm_compute; reflexivity|]. do 2 eexists. split; [cbn; reflexivity|]. split; [left; reflexivity|reflexivity].
Qed.

Print Assumptions C55_stubs.
Print Assumptions C55_stub.
Print Assumptions C55_document.
Print Assumptions C55_unique.

Print Assumptions C02_cycle_refuted.
