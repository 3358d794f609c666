(** C56: templates with merge expressions.  The whole processing of a template whose fields
    are merged with stubs by (( merge )), (( merge path )), (( merge || default )),
    << : (( merge )) and the like. *)
From Coq Require Import Lia.
From Verif Require Import Core CoreFacts Str StrFacts DecSpec Interp Find FindFacts EquivFacts PropInterp
  Cleanup Unresolved PropUnresolved DeepEq DeepEqFacts Env Flow FlowSpec FlowFacts FlowPass FlowMerge FlowStable
  Info Eval Control Engine MergeSpec FlowIns FlowDet.
From Verif Require PropFlow PropFlow2 Parser.
From Verif Require Import World0 PropDoc.
Import ListNotations.
Open Scope string_scope. Open Scope list_scope.


Section C56.
Variable ST : Type.
Variable W : world ST.
Variables resetStream enter leave : ST -> ST.
Variable pushDocument : node -> ST -> ST.
Notation interpol := (w_interpol W).
Notation ctrl := (w_ctrl W).
Notation plain := (plainDoc ordinaryKey interpol).
Notation mdoc := (MergeSpec.mdoc interpol ctrl (w_parse W) (w_quote W)).
Notation fills := (MergeSpec.fills interpol ctrl (w_parse W) (w_quote W)).
Notation process := (PropDoc.process ST W resetStream enter leave pushDocument).

Lemma evm e q rd rp rq nn env s : (2 <= e)%nat -> evalF ST W e (EMerge q rd rp rq nn "") env false s = evalMerge ST ctrl q rd rp rq nn "" env s.
Proof. destruct e as [|[|e]]; intro L; [lia|lia|reflexivity]. Qed.
Lemma evor e a b env s : evalF ST W (S e) (EOr a b) env false s = evalOr ST (evalF ST W e) a b env s.
Proof. reflexivity. Qed.
Lemma evf e q rd rp rq d env n s : (2 <= e)%nat -> findInStubs ctrl env q = FOk n -> isExpr (val n) = false ->
  evalF ST W e (EOr (EMerge q rd rp rq false "") d) env false s = evalMerge ST ctrl q rd rp rq false "" env s.
Proof.
  destruct e as [|[|e]]; intros L Fd X; [lia|lia|]. rewrite evor. unfold evalOr, bind.
  change (evalF ST W (S e) (EMerge q rd rp rq false "") env false s) with (evalMerge ST ctrl q rd rp rq false "" env s).
  unfold evalMerge. rewrite Fd. unfold done, ret. cbn [f_undefined negb andb]. destruct (val n); try reflexivity. discriminate X.
Qed.
Lemma evn e q rd rp rq d x env s : (2 <= e)%nat -> literal interpol d x -> findInStubs ctrl env q = FNo ->
  evalF ST W e (EOr (EMerge q rd rp rq false "") d) env false s =
  Ret (x, mkInfo (if rd : bool then Some q else None) false false false "" "" false false false false noIssue 0%N, true) s.
Proof.
  destruct e as [|[|e]]; intros L X Fd; [lia|lia|]. rewrite evor. unfold evalOr, bind.
  change (evalF ST W (S e) (EMerge q rd rp rq false "") env false s) with (evalMerge ST ctrl q rd rp rq false "" env s).
  unfold evalMerge. rewrite Fd. destruct X, rd; reflexivity.
Qed.

Section Run.
Variable stubs : list node.
Hypothesis SP : Forall plain stubs.
Hypothesis SF : Forall fitsN stubs.
Lemma run_apply T : mdoc stubs [] [] T -> (exists m, val T = VMap m) -> exists r, fills stubs [] [] T r /\ exists N, forall f outer o s, (N <= f)%nat ->
  apply ST interpol ctrl stdReg (w_parse W) (w_quote W) (w_show W) (evalF ST W f) (w_setTag W) (controlFn ST ctrl (evalF ST W f))
    (w_parseIssue W) enter leave pushDocument f f outer T stubs o s = Ret (r, []) (pushDocument r (leave (enter s))).
Proof.
  intros D VM.
  destruct (mdoc_life ST interpol ctrl stdReg (w_parse W) (w_quote W) (w_show W) (evalF ST W) (w_setTag W) (fun e => controlFn ST ctrl (evalF ST W e)) stubs SP SF evm evf evn [] [] T D) as (r & w & L & FI); [constructor|].
  exists r. split; [exact FI|].
  pose proof (life_fin _ _ _ _ _ _ _ _ _ _ _ _ _ _ _ _ _ L) as Fi.
  destruct (loop_life ST interpol ctrl stdReg (w_parse W) (w_quote W) (w_show W) (evalF ST W) (w_setTag W) (fun e => controlFn ST ctrl (evalF ST W e)) stubs T r w L) as (N & LO).
  exists N. intros f outer o s HF.
  unfold apply, bind, nestedFlow, bind, change, envFlow, bind. rewrite LO; [|exact HF|exact HF|exact HF|exact VM|repeat split].
  cbn [ret]. unfold ret, deactivateScopes. rewrite (mapBelow_id _ _ (mapHere_fin interpol _ r Fi)). rewrite (unresolved_fin interpol _ _ r Fi).
  assert (DT : (if o_temporary o then r else dropTemporary r) = r) by (destruct (o_temporary o); [reflexivity|now apply (dropTemporary_fin interpol)]). rewrite DT.
  assert (U : (if o_escapes o then r else unescapeDoc (w_quote W) (match outer with Some _ => interpol | None => false end) r) = r).
  { destruct (o_escapes o); [reflexivity|]. apply (unescapeDoc_fin interpol); [|exact Fi]. destruct outer; [auto|discriminate]. }
  rewrite U. reflexivity.
Qed.
End Run.

(** The cascade of a template with merge expressions and plain stubs.  Every stub is merged with
    the ones after it (as in C02); all merge expressions of the template get their values. *)
Theorem C56_cascade : forall stubs, Forall plain stubs -> Forall fitsN stubs -> Forall steadyLists stubs ->
  exists P, prepared ctrl stubs P /\
  forall T, mdoc P [] [] T -> (exists m, val T = VMap m) ->
  exists r, fills P [] [] T r /\ exists N, forall f outer o s, (N <= f)%nat -> exists s', process f outer T o stubs s = Ret (Some r, []) s'.
Proof.
  intros stubs H1 H2 H3. destruct (PropDoc.prep_all ST W resetStream enter leave stubs H1 H2 H3) as (N & P & P1 & P2 & P3 & P4).
  exists P. split; [exact P3|]. intros T D VM. destruct (run_apply P P1 P2 T D VM) as (r & FI & N' & RA).
  exists r. split; [exact FI|]. exists (Nat.max N N'). intros f outer o s HF.
  unfold process, cascade, bind. destruct (P4 f outer (o_partial o) s) as [s1 E1]; [lia|]. rewrite E1. unfold change. eexists.
  rewrite RA; [|lia]. reflexivity.
Qed.

(** With one stub document, it is merged as it is. *)
Theorem C56_single : forall S T, plain S -> fitsN S -> mdoc [S] [] [] T -> (exists m, val T = VMap m) ->
  exists r, fills [S] [] [] T r /\ exists N, forall f outer o s, (N <= f)%nat -> exists s', process f outer T o [S] s = Ret (Some r, []) s'.
Proof.
  intros S T P Fi D VM. destruct (run_apply [S] (Forall_cons _ P (Forall_nil _)) (Forall_cons _ Fi (Forall_nil _)) T D VM) as (r & FI & N & RA).
  exists r. split; [exact FI|]. exists (Datatypes.S (Nat.max N (depth S))). intros f outer o s HF.
  assert (Q : plainDoc quietKey interpol S) by (apply (plain_weaken ordinaryKey quietKey ordinary_quiet), P).
  unfold process, cascade, bind. cbn [prepareStubs]. unfold bind, ret, change.
  rewrite (PropFlow.nested_of_loop) with (K := quietKey) (r := S); [|exact Q|].
  - cbv beta iota. rewrite (dropLocal_plain _ _ _ Q). rewrite RA; [|lia]. eexists. reflexivity.
  - intro s1. apply PropFlow.alone_loop; try assumption; lia.
Qed.

(** The specification leaves no choice: it determines the contents of the result. *)
Theorem C56_determined : forall stubs T r r', Forall plain stubs -> mdoc stubs [] [] T -> fills stubs [] [] T r -> fills stubs [] [] T r' -> sameDoc r r'.
Proof. intros stubs T r r' SP D. apply (fills_fun interpol ctrl stubs (w_parse W) (w_quote W) SP [] [] T D). Qed.
(** The same for the prepared stubs and for plain templates (C02). *)
Theorem C02_determined : forall stubs over p t r r', plain t -> merges ctrl stubs over p t r -> merges ctrl stubs over p t r' -> sameDoc r r'.
Proof. intros stubs over p t r r' P. apply (merges_fun interpol ctrl stubs t over p r r' P). Qed.
End C56.

(** ** Example: with the parser of C48/C49 *)
Definition readM (t : string) (pa p : list string) : option expr := match Parser.Parse (fun _ => None) pa p 2000 t with Parser.ParseOk e => Some e | _ => None end.
Definition WM : world (nat -> value) := mkWorld (nat -> value)
  true true (fun _ => newNode (VMap []) "__ctx") readM (fun s => s) (fun _ => ""%string)
  net0 (fun _ => ""%string) (fun _ _ _ _ s => (true, s)) (fun _ _ => [])
  (fun i s => s i) (fun i v s j => if Nat.eqb i j then v else s j) (fun _ => noIssue)
  (fun _ _ _ _ _ _ _ => ret _ None) (fun _ _ _ _ => ret _ (VNil, defaultInfo, false)).
(** the template
      a: (( merge ))
      b: (( merge o.x ))
      c: (( merge || "z" ))
      d: { <<: (( merge )), x: 1, y: 2 }
      e: { <<: (( merge o )), k: v, x: (( merge )) }
      f: { <<: (( merge replace )), z: 1 }
      g: { <<: (( merge )), z: 1 }
      h: { i: (( merge none )) } *)
Definition exT : node := nd (nmD [("a", VStr "(( merge ))"); ("b", VStr "(( merge o.x ))"); ("c", VStr "(( merge || ""z"" ))");
  ("d", nmD [("<<", VStr "(( merge ))"); ("x", VInt 1); ("y", VInt 2)]); ("e", nmD [("<<", VStr "(( merge o ))"); ("k", VStr "v"); ("x", VStr "(( merge ))")]);
  ("f", nmD [("<<", VStr "(( merge replace ))"); ("z", VInt 1)]); ("g", nmD [("<<", VStr "(( merge ))"); ("z", VInt 1)]); ("h", nmD [("i", VStr "(( merge none ))")])]).
Definition exStub : node := nd (nmD [("a", nmD [("q", VInt 1)]); ("d", nmD [("w", VInt 7); ("x", VInt 5)]); ("f", nmD [("m", VInt 3)]); ("o", nmD [("u", VInt 8); ("x", VInt 9)])]).
Definition exR : node := nd (nmD [("a", nmD [("q", VInt 1)]); ("b", VInt 9); ("c", VStr "z");
  ("d", nmD [("w", VInt 7); ("x", VInt 5); ("y", VInt 2)]); ("e", nmD [("k", VStr "v"); ("u", VInt 8); ("x", VInt 9)]);
  ("f", nmD [("m", VInt 3)]); ("g", nmD [("z", VInt 1)]); ("h", nmD [("i", VNil)])]).
Example ex_merge_runs : exists R s, process _ WM id id id (fun _ => id) 30 None exT (mkOpts false false false) [exStub] st0 = Ret (Some R, []) s /\ sameDoc R exR.
Proof. do 2 eexists. split; [vm_compute; reflexivity|vm_compute; reflexivity]. Qed.

Lemma exStub_plain : plainDoc ordinaryKey true exStub.
Proof. plainly. Qed.
Lemma exStub_fits : fitsN exStub.
Proof. cbn. unfold max64. repeat split; lia. Qed.
Ltac atText := eexists _, _, _; split; [reflexivity|]; split; [vm_compute; reflexivity|vm_compute; reflexivity].
Ltac okSteps := repeat apply Forall_cons; try apply Forall_nil; left; intros [r0 E0]; discriminate E0.
Ltac inStub := eexists [], _, []; split; [reflexivity|split; [vm_compute; reflexivity|intros b w []]].
Ltac notInStub := intros s0 v0 [<-|[]]; vm_compute; discriminate.
Ltac sortly := cbn; repeat split; intros k' H; repeat (destruct H as [<-|H]; [reflexivity|]); destruct H.
Ltac ordly := let N := fresh "N" in intros k' H N; cbn in H; repeat (destruct H as [<-|H]; [first [now contradiction N|apply PropFlow2.ord; reflexivity]|]); destruct H.
Ltac fieldly tac := let N := fresh "N" in intros k' x' H N; cbn in H; repeat (destruct H as [H|H]; [injection H as <- <-; first [now contradiction N|tac]|]); destruct H.
Ltac plainD := apply D_plain; [plainly|cbn; unfold max64; repeat split; lia|apply SL_leaf; intros; discriminate].
Example ex_merge_hyp : MergeSpec.mdoc true true (w_parse WM) (w_quote WM) [exStub] [] [] exT /\ (exists m, val exT = VMap m) /\ plainDoc ordinaryKey true exStub /\ fitsN exStub.
Proof.
  split; [|split; [eexists; reflexivity|split; [exact exStub_plain|exact exStub_fits]]].
  eapply D_fields; [sortly|ordly|apply B_none; cbn; intuition discriminate|].
  intros k x H _. cbn in H. destruct H as [H|[H|[H|[H|[H|[H|[H|[H|[]]]]]]]]]; injection H as <- <-; cbn [app].
  - eapply D_value; [atText|]. apply Y_found; [okSteps|inStub].
  - eapply D_value; [atText|]. apply Y_found; [okSteps|inStub].
  - eapply D_value; [atText|]. apply Y_default with (s := ""); [okSteps|reflexivity|notInStub|]. constructor. apply PropFlow2.lit_short.
  - eapply D_fields; [sortly|ordly|eapply B_found; [now left|atText|okSteps|reflexivity|inStub|reflexivity]|]. fieldly plainD.
  - eapply D_fields; [sortly|ordly|eapply B_found; [now left|atText|okSteps|discriminate|inStub|reflexivity]|].
    intros k x H N. cbn in H. destruct H as [H|[H|[H|[]]]]; injection H as <- <-; [now contradiction N|plainD|].
    eapply D_value; [atText|]. apply Y_found; [okSteps|inStub].
  - eapply D_replace; [sortly|ordly|now left|atText|okSteps|inStub|reflexivity|].
    fieldly ltac:(apply Y_leaf; right; right; left; eexists; reflexivity).
  - eapply D_fields; [sortly|ordly|eapply B_absent; [now left|atText|notInStub]|]. fieldly plainD.
  - eapply D_fields; [sortly|ordly|apply B_none; cbn; intuition discriminate|]. fieldly ltac:(eapply D_value; [atText|]; apply Y_none with (s := "")).
Qed.

(** ** Example: lists
      l:
      - name: a
        v: 1
      - <<: (( merge ))
      - name: b
        w: { <<: (( merge )), x: 1 }
        <<: (( merge ))
      k:
      - <<: (( merge l ))
      - name: z
      n:
      - <<: (( merge ))
      - name: q
        e: (( merge || 4 )) *)
Definition exLT : node := nd (nmD [("k", nlD [nmD [("<<", VStr "(( merge l ))")]; nmD [("name", VStr "z")]]);
  ("l", nlD [nmD [("name", VStr "a"); ("v", VInt 1)]; nmD [("<<", VStr "(( merge ))")];
             nmD [("<<", VStr "(( merge ))"); ("name", VStr "b"); ("w", nmD [("<<", VStr "(( merge ))"); ("x", VInt 1)])]]);
  ("n", nlD [nmD [("<<", VStr "(( merge ))")]; nmD [("e", VStr "(( merge || 4 ))"); ("name", VStr "q")]])]).
Definition exLS : node := nd (nmD [("l", nlD [nmD [("name", VStr "c"); ("v", VInt 3)]; nmD [("name", VStr "b"); ("u", VInt 2); ("w", nmD [("x", VInt 6); ("y", VInt 7)])];
  nmD [("name", VStr "d")]; nmD [("name", VStr "a"); ("v", VInt 9)]])]).
Definition exLR : node := nd (nmD [("k", nlD [nmD [("name", VStr "c"); ("v", VInt 3)]; nmD [("name", VStr "b"); ("u", VInt 2); ("w", nmD [("x", VInt 6); ("y", VInt 7)])];
    nmD [("name", VStr "d")]; nmD [("name", VStr "a"); ("v", VInt 9)]; nmD [("name", VStr "z")]]);
  ("l", nlD [nmD [("name", VStr "a"); ("v", VInt 9)]; nmD [("name", VStr "c"); ("v", VInt 3)]; nmD [("name", VStr "d")];
             nmD [("name", VStr "b"); ("u", VInt 2); ("w", nmD [("x", VInt 6); ("y", VInt 7)])]]);
  ("n", nlD [nmD [("e", VInt 4); ("name", VStr "q")]])]).
Example ex_lists_run : exists R s, process _ WM id id id (fun _ => id) 30 None exLT (mkOpts false false false) [exLS] st0 = Ret (Some R, []) s /\ sameDoc R exLR.
Proof. do 2 eexists. split; [vm_compute; reflexivity|vm_compute; reflexivity]. Qed.

Ltac anElement := eexists _, _, _; split; [reflexivity|]; split; [sortly|]; split; [cbn; intuition reflexivity|]; split; [apply PropFlow2.lit_short|];
  let I0 := fresh "I0" in intros x0 I0; cbn in I0; repeat (destruct I0 as [I0|I0]; [first [discriminate I0|injection I0 as <-; eexists; atText]|]); destruct I0.
Ltac names1 := eexists _, _; split; [reflexivity|]; split; [cbn; intuition reflexivity|reflexivity].
Ltac distinct := repeat apply NoDup_cons; try apply NoDup_nil; cbn; intuition discriminate.
Lemma simple1 c : c <> "["%char -> c <> ":"%char -> simpleName (String c "").
Proof.
  intros N1 N2. split.
  - intros [r0 E0]. cbn in E0. injection E0 as E0 _. now apply N1.
  - intros a b E. destruct a as [|c0 a]; cbn in E; injection E as E1 E2; [now apply N2|destruct a; discriminate E2].
Qed.
Ltac simply := repeat apply Forall_cons; try apply Forall_nil; apply simple1; discriminate.
Example ex_lists_hyp : MergeSpec.mdoc true true (w_parse WM) (w_quote WM) [exLS] [] [] exLT /\ (exists m, val exLT = VMap m) /\ plainDoc ordinaryKey true exLS /\ fitsN exLS.
Proof.
  split; [|split; [eexists; reflexivity|split; [plainly|cbn; unfold max64; repeat split; lia]]].
  eapply D_fields; [sortly|ordly|apply B_none; cbn; intuition discriminate|].
  intros k x H _. cbn in H. destruct H as [H|[H|[H|[]]]]; injection H as <- <-; cbn [app].
  - eapply (D_entries _ _ _ _ _ _ _ [] _ _ [nd (nmD [("name", VStr "z")])] _ ["l"] _ ["z"] ["c"; "b"; "d"; "a"]).
    + eapply E_found; [atText|okSteps|discriminate|inStub|reflexivity].
    + cbn [app]. repeat apply Forall2_cons; [anElement|apply Forall2_nil].
    + distinct.
    + repeat apply Forall2_cons; try apply Forall2_nil; names1.
    + distinct.
    + simply.
    + intros t n [<-|[]] (m & c & V & I & E). injection V as <-. destruct I as [I|[]]. injection I as <-. injection E as <-.
      eapply D_fields; [sortly|ordly|apply B_none; cbn; intuition discriminate|]. fieldly plainD.
  - eapply (D_entries _ _ _ _ _ _ _ [nd (nmD [("name", VStr "a"); ("v", VInt 1)])] _ _ [nd (nmD [("<<", VStr "(( merge ))"); ("name", VStr "b"); ("w", nmD [("<<", VStr "(( merge ))"); ("x", VInt 1)])])] _ ["l"] _ ["a"; "b"] ["c"; "b"; "d"; "a"]).
    + eapply E_found; [atText|okSteps|reflexivity|inStub|reflexivity].
    + cbn [app]. repeat apply Forall2_cons; [anElement|anElement|apply Forall2_nil].
    + distinct.
    + repeat apply Forall2_cons; try apply Forall2_nil; names1.
    + distinct.
    + simply.
    + intros t n [<-|[<-|[]]] (m & c & V & I & E); injection V as <-; cbn in I.
      * destruct I as [I|[I|[]]]; [|discriminate I]. injection I as <-. injection E as <-.
        eapply D_fields; [sortly|ordly|apply B_none; cbn; intuition discriminate|]. fieldly plainD.
      * destruct I as [I|[I|[I|[]]]]; try discriminate I. injection I as <-. injection E as <-.
        eapply D_fields; [sortly|ordly|eapply B_found; [now left|atText|okSteps|reflexivity|inStub|reflexivity]|].
        intros k x H N. cbn in H. destruct H as [H|[H|[H|[]]]]; injection H as <- <-; [now contradiction N|plainD|].
        eapply D_fields; [sortly|ordly|eapply B_found; [now left|atText|okSteps|reflexivity|inStub|reflexivity]|]. fieldly plainD.
  - eapply (D_entries _ _ _ _ _ _ _ [] _ _ [nd (nmD [("e", VStr "(( merge || 4 ))"); ("name", VStr "q")])] _ ["n"] _ ["q"] []).
    + eapply E_absent; [atText|notInStub].
    + cbn [app]. repeat apply Forall2_cons; [anElement|apply Forall2_nil].
    + distinct.
    + apply Forall2_nil.
    + distinct.
    + apply Forall_nil.
    + intros t n [<-|[]] (m & c & V & I & E). injection V as <-. cbn in I. destruct I as [I|[I|[]]]; [discriminate I|]. injection I as <-. injection E as <-.
      eapply D_fields; [sortly|ordly|apply B_none; cbn; intuition discriminate|].
      intros k x H N. cbn in H. destruct H as [H|[H|[]]]; injection H as <- <-; [|plainD].
      eapply D_value; [atText|]. apply Y_default with (s := ""); [okSteps|reflexivity|notInStub|constructor].
Qed.

(** The restrictions of the specification are needed:
    - an own element that is an expression is not evaluated beside a merge entry: with a: 3 and
      l: [ (( a )), <<: (( merge )) ] the text stays in the result, and no error is reported *)
Theorem C56_list_text_refuted : exists T S R s,
  T = nd (nmD [("a", VInt 3); ("l", nlD [VStr "(( a ))"; nmD [("<<", VStr "(( merge ))")]])]) /\ S = nd (nmD [("l", nlD [VInt 7])]) /\
  process _ WM id id id (fun _ => id) 30 None T (mkOpts false false false) [S] st0 = Ret (Some R, []) s /\
  sameDoc R (nd (nmD [("a", VInt 3); ("l", nlD [VStr "(( a ))"; VInt 7])])).
Proof. do 4 eexists. split; [reflexivity|]. split; [reflexivity|]. split; [vm_compute; reflexivity|vm_compute; reflexivity]. Qed.
(** - the element of the stub is inserted although the list has one with the same name, if the
      name contains a colon: two elements have the same name then *)
Theorem C56_list_colon_refuted : exists T S R s,
  T = nd (nmD [("l", nlD [nmD [("name", VStr "x:y"); ("v", VInt 1)]; nmD [("<<", VStr "(( merge ))")]])]) /\
  S = nd (nmD [("l", nlD [nmD [("name", VStr "x:y"); ("v", VInt 7)]])]) /\
  process _ WM id id id (fun _ => id) 30 None T (mkOpts false false false) [S] st0 = Ret (Some R, []) s /\
  sameDoc R (nd (nmD [("l", nlD [nmD [("name", VStr "x:y"); ("v", VInt 1)]; nmD [("name", VStr "x:y"); ("v", VInt 7)]])])).
Proof. do 4 eexists. split; [reflexivity|]. split; [reflexivity|]. split; [vm_compute; reflexivity|vm_compute; reflexivity]. Qed.

Print Assumptions C56_cascade.
Print Assumptions C56_single.
Print Assumptions C56_determined.
Print Assumptions C02_determined.
Print Assumptions C56_list_text_refuted.
Print Assumptions C56_list_colon_refuted.
