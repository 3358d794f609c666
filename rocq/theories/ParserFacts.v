(** The dynaml parser: termination, and the discipline of its stack. *)
From Verif Require Import Core Str Peg PegFacts Grammar Eval Parser.
From Coq Require Import SpecFloat Lia PeanoNat.
Import ListNotations.

(** ** termination *)
Definition nlR (r : rule) : bool :=
  match r with
  | R_ProjectionValue | R_Default | R_StartParams | R_FollowUpRef | R_ws => true
  | _ => false
  end.
Definition rankR (r : rule) : nat :=
  match r with
  | R_LambdaExpr | R_Scope | R_List | R_Tag | R_Map | R_Range | R_Merge | R_Prefer | R_MarkedExpression
  | R_SubsequentMarker | R_MarkerExpression | R_Or | R_Concatenation | R_Comparison | R_Indices
  | R_PathComponent | R_ChainedCall | R_NextNameArgument | R_LambdaRef | R_NextName => 1
  | R_Scoped | R_TagPrefix | R_ChainedDynRef | R_Slice | R_ChainedRef | R_LambdaOrExpr | R_Names | R_FollowUpRef => 2
  | R_Reference | R_Projection => 3
  | R_Chained | R_ChainedQualifiedExpression => 4
  | R_Level0 => 5
  | R_Level1 => 6
  | R_Level2 => 7
  | R_Level3 => 8
  | R_Level4 => 9
  | R_Level5 => 10
  | R_Conditional => 11
  | R_Level6 => 12
  | R_Level7 => 13
  | R_Expression => 14
  | R_Dynaml | R_NextExpression | R_Assignment => 15
  | R_NameArgumentList | R_ExpressionList | R_Assignments => 16
  | _ => 0
  end.
Lemma grammar_terminates p s : starok rule nlR p = true -> exists f, run grammar f p s <> RunFuel.
Proof.
  apply (terminates rule grammar nlR) with (rank := rankR) (K := 17%nat).
  - now intros [].
  - now intros [].
  - now intros [].
  - intros []; cbv [rankR]; lia.
Qed.

(** ** the stack *)
Inductive kind := KE | KRef | KMap | KRange | KCall | KProj | KLam | KMarker | KNM
                | KWrap | KList | KNames | KNames1 | KName | KOp.
Definition has (k : kind) (i : item) : bool :=
  match k, i with
  | KE, IExpr _ => true
  | KRef, IExpr (ERef _ _) => true
  | KMap, IExpr (EMap _) => true
  | KRange, IExpr (ERange _ _) => true
  | KCall, IExpr (ECall _ _ _) => true
  | KProj, IExpr (EProjVal _) => true
  | KLam, IExpr (ELambda _ _ _) => true
  | KMarker, IExpr (EMarker _ _) => true
  | KNM, IExpr (EMarker _ _) => false
  | KNM, IExpr _ => true
  | KWrap, IWrap _ => true
  | KList, IList _ => true
  | KNames, INames _ _ => true
  | KNames1, INames (_ :: _) _ => true
  | KName, IName _ => true
  | KOp, IOp _ => true
  | _, _ => false
  end.
Definition sub (a b : kind) : bool :=
  match a, b with
  | KE, KE | KRef, KRef | KMap, KMap | KRange, KRange | KCall, KCall | KProj, KProj | KLam, KLam
  | KMarker, KMarker | KNM, KNM | KWrap, KWrap | KList, KList | KNames, KNames | KNames1, KNames1
  | KName, KName | KOp, KOp => true
  | (KRef | KMap | KRange | KCall | KProj | KLam | KMarker | KNM), KE => true
  | KNames1, KNames => true
  | _, _ => false
  end.
Lemma sub_has a b i : sub a b = true -> has a i = true -> has b i = true.
Proof. destruct a, b; try discriminate; trivial; destruct i as [[]| | | [|] | |]; trivial. Qed.

(** the kinds of the items above [base] *)
Definition shape (l : list kind) (base st : list item) : Prop :=
  exists its, st = its ++ base /\ Forall2 (fun k i => has k i = true) l its.
(** [a] has a prefix below [b]; the rest *)
Fixpoint strip (b a : list kind) : option (list kind) :=
  match b, a with
  | [], _ => Some a
  | k :: b, k' :: a => if sub k' k then strip b a else None
  | _ :: _, [] => None
  end.
Definition below (a b : list kind) : bool :=
  match strip b a with Some [] => true | _ => false end.
Lemma strip_shape b : forall a r base st, strip b a = Some r -> shape a base st ->
  exists base', shape b base' st /\ shape r base base'.
Proof.
  induction b as [|k b IH]; intros a r base st H S; cbn in H.
  - inversion H; subst. exists st. split; [|assumption]. exists []. now split.
  - destruct a as [|k' a]; [discriminate|]. destruct (sub k' k) eqn:E; [|discriminate].
    destruct S as [its [-> F]]. inversion F as [|x i l l' Hk F']; subst. clear F.
    destruct (IH a r base (l' ++ base) H) as [base' [[its' [E1 F1]] S2]]; [now exists l'|].
    exists base'. split; [|assumption]. exists (i :: its'). split; [cbn; now rewrite E1|].
    constructor; [now apply (sub_has k')|assumption].
Qed.
Lemma below_shape a b base st : below a b = true -> shape a base st -> shape b base st.
Proof.
  unfold below. destruct (strip b a) as [[|]|] eqn:E; try discriminate. intros _ S.
  destruct (strip_shape _ _ _ _ _ E S) as [base' [A [its [-> F]]]]. now inversion F; subst.
Qed.
Lemma shape_app a r base base' st : shape a base' st -> shape r base base' -> shape (a ++ r) base st.
Proof.
  intros [i [-> F]] [j [-> F']]. exists (i ++ j). split; [now rewrite app_assoc|now apply Forall2_app].
Qed.

(** what a rule needs and what it leaves *)
Definition decl (r : rule) : option (list kind * list kind) :=
  match r with
  | R_Dynaml => None
  | R_Or | R_Concatenation | R_LogOr | R_LogAnd | R_Comparison | R_Addition | R_Subtraction
  | R_Multiplication | R_Division | R_Modulo | R_ChainedQualifiedExpression | R_ChainedRef
  | R_ChainedDynRef | R_Projection | R_Slice | R_ListExpansion => Some ([KE], [KE])
  | R_OrOp | R_CompareOp | R_StartRange | R_RangeOp => Some ([], [KOp])
  | R_ChainedCall | R_Currying => Some ([KE], [KCall])
  | R_StartArguments | R_StartList => Some ([], [KList])
  | R_NameArgumentList | R_NextNameArgument | R_NextExpression | R_ExpressionList => Some ([KList], [KList])
  | R_ProjectionValue => Some ([], [KE; KProj])
  | R_Range => Some ([], [KRange])
  | R_Scope | R_CreateScope | R_Map | R_CreateMap => Some ([], [KMap])
  | R_Assignments | R_Assignment => Some ([KMap], [KMap])
  | R_Replace | R_Required | R_On | R_ws | R_req_ws | R_Tag | R_TagComponent | R_TagPrefix | R_TagMarker
  | R_Key | R_Index | R_PathComponent | R_FollowUpRef => Some ([], [])
  | R_Reference => Some ([], [KRef])
  | R_LambdaExt => Some ([], [KWrap])
  | R_LambdaExpr => Some ([], [KLam])
  | R_Params | R_StartParams => Some ([], [KNames])
  | R_Names | R_NextName => Some ([KNames], [KNames1])
  | R_DefaultValue | R_VarParams => Some ([KNames1], [KNames1])
  | R_Name => Some ([], [KName])
  | R_Marker => Some ([], [KMarker])
  | R_SubsequentMarker => Some ([KMarker], [KMarker])
  | R_MarkerExpression => Some ([], [KNM])
  | _ => Some ([], [KE])
  end.
(** the effect of the action of a rule *)
Definition pushes (new old l : list kind) : option (list kind) :=
  match strip old l with Some r => Some (new ++ r) | None => None end.
Definition orElse (a b : option (list kind)) : option (list kind) :=
  match a with Some _ => a | None => b end.
Definition actionTy (r : rule) (l : list kind) : option (list kind) :=
  match r with
  | R_Dynaml => None
  | R_Marker => pushes [KMarker] [] l
  | R_SubsequentMarker => pushes [KMarker] [KMarker; KMarker] l
  | R_MarkerExpression => pushes [KNM] [KE] l
  | R_MarkedExpression => orElse (pushes [KE] [KMarker] l) (pushes [KE] [KNM; KMarker] l)
  | R_Prefer | R_Grouped | R_ChainedRef | R_TopIndex | R_Substitution | R_Not | R_LambdaRef | R_ListExpansion => pushes [KE] [KE] l
  | R_Auto | R_SimpleMerge | R_Number | R_Nil | R_Undefined | R_Boolean | R_String | R_IP | R_Default => pushes [KE] [] l
  | R_Merge | R_Replace | R_Required => Some l
  | R_RefMerge => pushes [KE] [KRef] l
  | R_On => pushes [] [KName] l
  | R_Reference => pushes [KRef] [] l
  | R_ChainedDynRef | R_LogOr | R_LogAnd | R_Concatenation | R_Addition | R_Subtraction | R_Multiplication
  | R_Division | R_Modulo | R_Catch | R_Mapping | R_FilterList | R_FilterMap | R_Selection | R_MapMapping
  | R_MapSelection => pushes [KE] [KE; KE] l
  | R_Slice => pushes [KE] [KRange; KE] l
  | R_Currying => pushes [KCall] [KCall] l
  | R_ChainedCall => pushes [KCall] [KList; KE] l
  | R_ProjectionValue => pushes [KE; KProj] [] l
  | R_Projection => pushes [KE] [KE; KProj; KE] l
  | R_Scoped => pushes [KE] [KE; KMap] l
  | R_CreateMap | R_CreateScope => pushes [KMap] [] l
  | R_Assignment => pushes [KMap] [KE; KE; KMap] l
  | R_Conditional | R_Sum => pushes [KE] [KE; KE; KE] l
  | R_Or | R_Comparison => pushes [KE] [KE; KOp; KE] l
  | R_OrOp | R_CompareOp | R_RangeOp | R_StartRange => pushes [KOp] [] l
  | R_Symbol => pushes [KE] [KName] l
  | R_StartParams => pushes [KNames] [] l
  | R_Name => pushes [KName] [] l
  | R_NextName => pushes [KNames1] [KName; KNames] l
  | R_DefaultValue => pushes [KNames1] [KE; KNames1] l
  | R_VarParams => pushes [KNames1] [KNames1] l
  | R_LambdaExt => pushes [KWrap] [KE] l
  | R_Sync => orElse (pushes [KE] [KE; KE; KE; KE] l) (pushes [KE] [KE; KWrap; KLam; KE] l)
  | R_LambdaExpr => pushes [KLam] [KE; KNames] l
  | R_Range => orElse (pushes [KRange] [KOp; KOp] l) (orElse (pushes [KRange] [KOp; KE; KOp] l)
                 (orElse (pushes [KRange] [KE; KOp; KOp] l) (pushes [KRange] [KE; KOp; KE; KOp] l)))
  | R_List | R_Indices => pushes [KE] [KList] l
  | R_NextNameArgument => pushes [KList] [KE; KName; KList] l
  | R_NextExpression => pushes [KList] [KE; KList] l
  | R_StartList | R_StartArguments => pushes [KList] [] l
  | _ => Some l
  end.
Definition good (l : list kind) (base : list item) (x : bres) : Prop :=
  match x with
  | BSt s => shape l base (b_stack s)
  | BErr | BRange => True
  | BDone _ | BPanic => False
  end.
Lemma pushes_shape new old l l' base st : pushes new old l = Some l' -> shape l base st ->
  exists its base', st = its ++ base' /\ Forall2 (fun k i => has k i = true) old its /\
    forall st', shape new base' st' -> shape l' base st'.
Proof.
  unfold pushes. intros H S. destruct (strip old l) as [r|] eqn:E; [|discriminate]. inversion H; subst.
  destruct (strip_shape _ _ _ _ _ E S) as [base' [[its [-> F]] S2]].
  exists its, base'. repeat split; [assumption|]. intros st' S'. now apply (shape_app _ _ _ base').
Qed.
Section S.
Variable parseFloat : string -> option spec_float.
Variable path stubPath : list string.
Notation action := (action parseFloat path stubPath).
Notation exec := (exec parseFloat path stubPath).

Ltac shp := match goal with
  | |- shape ?n ?b ?st => 
      first [ exists []; split; [reflexivity|constructor]
            | match st with
              | ?a :: ?c :: b => exists [a; c]; split; [reflexivity|repeat constructor]
              | ?a :: b => exists [a]; split; [reflexivity|repeat constructor]
              end ]
  end.
Ltac inv := repeat match goal with
  | F : Forall2 _ (_ :: _) _ |- _ => inversion F; subst; clear F
  | F : Forall2 _ [] _ |- _ => inversion F; subst; clear F
  | H : has KE ?i = true |- _ => destruct i; try discriminate H; clear H
  | H : has KRef ?i = true |- _ => destruct i as [[]| | | | |]; try discriminate H; clear H
  | H : has KMap ?i = true |- _ => destruct i as [[]| | | | |]; try discriminate H; clear H
  | H : has KRange ?i = true |- _ => destruct i as [[]| | | | |]; try discriminate H; clear H
  | H : has KCall ?i = true |- _ => destruct i as [[]| | | | |]; try discriminate H; clear H
  | H : has KProj ?i = true |- _ => destruct i as [[]| | | | |]; try discriminate H; clear H
  | H : has KLam ?i = true |- _ => destruct i as [[]| | | | |]; try discriminate H; clear H
  | H : has KMarker ?i = true |- _ => destruct i as [[]| | | | |]; try discriminate H; clear H
  | H : has KWrap ?i = true |- _ => destruct i; try discriminate H; clear H
  | H : has KList ?i = true |- _ => destruct i; try discriminate H; clear H
  | H : has KNames ?i = true |- _ => destruct i; try discriminate H; clear H
  | H : has KName ?i = true |- _ => destruct i; try discriminate H; clear H
  | H : has KOp ?i = true |- _ => destruct i; try discriminate H; clear H
  | H : has KNames1 ?i = true |- _ => destruct i as [ | | |[|? ?] ?| |]; try discriminate H; clear H
  end.
Ltac psh H S := 
    let its := fresh "its" in let b' := fresh "base'" in let E := fresh "E" in let F := fresh "F" in let K := fresh "K" in
    destruct (pushes_shape _ _ _ _ _ _ H S) as [its [b' [E [F K]]]]; inv.
Lemma action_good r c l l' base s : actionTy r l = Some l' -> shape l base (b_stack s) ->
  good l' base (action r c s).
Proof.
  destruct s as [st rp rq ky nx]. cbn [b_stack]. intros H S.
  destruct r; cbn [actionTy] in H; try discriminate;
    try (inversion H; subst; cbn; assumption);
    try (psh H S; subst; cbn; 
         repeat match goal with |- context [match ?x with _ => _ end] => is_var x; destruct x end;
         try exact Logic.I; try (apply K; shp); fail).
  - (* MarkedExpression *)
    unfold orElse in H. destruct (pushes [KE] [KMarker] l) as [x|] eqn:P.
    + inversion H; subst x. psh P S. subst. cbn. apply K. shp.
    + psh H S. subst. match goal with H : has KNM ?i = true |- _ => destruct i as [[]| | | | |]; try discriminate H end;
        cbn; apply K; shp.
  - (* Range *)
    unfold orElse in H.
    destruct (pushes [KRange] [KOp; KOp] l) as [x|] eqn:P1; [inversion H; subst x; psh P1 S; subst; cbn; apply K; shp|].
    destruct (pushes [KRange] [KOp; KE; KOp] l) as [x|] eqn:P2; [inversion H; subst x; psh P2 S; subst; cbn; apply K; shp|].
    destruct (pushes [KRange] [KE; KOp; KOp] l) as [x|] eqn:P3; [inversion H; subst x; psh P3 S; subst; cbn; apply K; shp|].
    psh H S; subst; cbn; apply K; shp.
  - (* Number *)
    psh H S; subst; cbn [Parser.action b_stack app]. destruct (number _ _); [cbn; apply K; shp|exact Logic.I].
  - psh H S; subst; cbn [Parser.action b_stack app]. destruct (parseString _); [cbn; apply K; shp|exact Logic.I].
  - (* Sync *)
    unfold orElse in H. destruct (pushes [KE] [KE; KE; KE; KE] l) as [x|] eqn:P.
    + inversion H; subst x. psh P S. subst. cbn. apply K. shp.
    + psh H S. subst. cbn. apply K. shp.
  - (* NextName *)
    psh H S; subst; cbn. apply K. eexists [_]. split; [reflexivity|]. constructor; [|constructor].
    cbn. now destruct l0.
  - (* DefaultValue *)
    psh H S; subst. cbn [Parser.action b_stack app].
    destruct (setDefault _ _) as [q|] eqn:Q.
    + cbn. apply K. eexists [_]. split; [reflexivity|]. constructor; [|constructor].
      unfold setDefault in Q. destruct (rev _) as [|[a b] r] in Q; [discriminate|]. inversion Q; subst q.
      cbn. now destruct (rev r).
    + exfalso. unfold setDefault in Q. destruct (rev _) as [|[a b] r] eqn:Rv in Q; [|discriminate].
      apply (f_equal (@length _)) in Rv. rewrite rev_length in Rv. discriminate.
  - (* Reference *)
    psh H S; subst; cbn. apply K. eexists [_]. split; [reflexivity|]. constructor; [|constructor].
    unfold refOf. destruct (lastColons _) as [[[|? ?] ?]|]; reflexivity.
Qed.


Definition goodL (ls : list (list kind)) (base : list item) (x : bres) : Prop :=
  match x with
  | BSt s => exists l, In l ls /\ shape l base (b_stack s)
  | BErr | BRange => True
  | BDone _ | BPanic => False
  end.
Lemma exec_app src n t1 t2 s : exec src n (t1 ++ t2) s =
  match exec src n t1 s with BSt s => exec src n t2 s | x => x end.
Proof.
  revert s. induction t1 as [|t t1 IH]; intros s; cbn; [reflexivity|].
  destruct (action _ _ _); auto.
Qed.
End S.

(** ** the check of the rules *)
Fixpoint bindo (k : list kind -> option (list (list kind))) (ls : list (list kind)) : option (list (list kind)) :=
  match ls with
  | [] => Some []
  | l :: ls => match k l, bindo k ls with
               | Some x, Some y => Some (x ++ y)
               | _, _ => None
               end
  end.
Fixpoint check (p : peg rule) (l : list kind) : option (list (list kind)) :=
  let inv a x := forallb (fun o => match check a o with
                                   | Some ys => forallb (fun y => below y o) ys
                                   | None => false
                                   end) x in
  match p with
  | PEps | PLit _ | PSet _ | PAny | PNot _ => Some [l]
  | PSeq a b => match check a l with
                | Some ls => bindo (check b) ls
                | None => None
                end
  | PAlt a b => match check a l, check b l with
                | Some x, Some y => Some (x ++ y)
                | _, _ => None
                end
  | POpt a => match check a l with Some x => Some (l :: x) | None => None end
  | PStar a => match check a l with
               | Some x => if inv a x then Some (l :: x) else None
               | None => None
               end
  | PPlus a => match check a l with
               | Some x => if inv a x then Some x else None
               | None => None
               end
  | PRule r => match decl r with
               | Some (pre, post) => match strip pre l with
                                     | Some rest => Some [post ++ rest]
                                     | None => None
                                     end
               | None => None
               end
  end.
Definition ruleok (r : rule) : bool :=
  match decl r with
  | None => true
  | Some (pre, post) =>
      match check (grammar r) pre with
      | Some ls => forallb (fun l => match actionTy r l with
                                     | Some l' => below l' post
                                     | None => false
                                     end) ls
      | None => false
      end
  end.
Lemma rules_ok r : ruleok r = true.
Proof. now destruct r. Qed.
Lemma bindo_In k ls x l : bindo k ls = Some x -> In l ls ->
  exists y, k l = Some y /\ forall o, In o y -> In o x.
Proof.
  revert x. induction ls as [|a ls IH]; intros x H I; [contradiction|]. cbn in H.
  destruct (k a) as [y|] eqn:E1; [|discriminate]. destruct (bindo k ls) as [z|] eqn:E2; [|discriminate].
  inversion H; subst. destruct I as [<-|I].
  - exists y. split; [assumption|]. intros; apply in_or_app; now left.
  - destruct (IH z eq_refl I) as [w [A B]]. exists w. split; [assumption|].
    intros; apply in_or_app; right; auto.
Qed.

Section S2.
Variable parseFloat : string -> option spec_float.
Variable path stubPath : list string.
Variable src : string.
Variable total : nat.
Notation exec := (exec parseFloat path stubPath src total).
Definition sound (f : nat) (p : peg rule) : Prop :=
  forall s s' toks, run grammar f p s = RunOk s' toks ->
  forall l ls base st, check p l = Some ls -> shape l base (b_stack st) -> goodL ls base (exec toks st).
Lemma star_inv f a : (forall f', (f' < f)%nat -> sound f' a) ->
  forall o ys, check a o = Some ys -> forallb (fun y => below y o) ys = true ->
  forall n s s' toks, (n <= f)%nat -> run grammar n (PStar a) s = RunOk s' toks ->
  forall base st, shape o base (b_stack st) -> goodL [o] base (exec toks st).
Proof.
  intros IH o ys C F n. rewrite forallb_forall in F.
  induction n as [|n IHn]; intros s s' toks L R base st S; [discriminate|].
  cbn [run] in R. destruct (run grammar n a s) as [| |s1 t1] eqn:R1; [discriminate| |].
  - inversion R; subst. cbn. exists o. split; [now left|assumption].
  - destruct (run grammar n (PStar a) s1) as [| |s2 t2] eqn:R2; try discriminate. inversion R; subst.
    rewrite exec_app. assert (L' : (n < f)%nat) by lia.
    pose proof (IH n L' _ _ _ R1 _ _ _ _ C S) as G1.
    destruct (exec t1 st) as [st1| | | |]; try exact G1. cbn in G1. destruct G1 as [y [I Y]].
    apply (IHn _ _ _ (Nat.lt_le_incl _ _ L') R2). now apply (below_shape y); auto.
Qed.
Lemma check_sound : forall f p, sound f p.
Proof.
  induction f as [f IH] using lt_wf_ind. intros p s s' toks R l ls base st C S.
  destruct f as [|f]; [discriminate|].
  assert (H1 : (f < Datatypes.S f)%nat) by lia.
  destruct p; cbn [run] in R; cbn [check] in C.
  - inversion R; inversion C; subst. cbn. exists l. now split; [left|].
  - destruct (eat _ _); inversion R; inversion C; subst. cbn. exists l. now split; [left|].
  - destruct s; [discriminate|]. destruct (runeIn _ _); inversion R; inversion C; subst. cbn. exists l. now split; [left|].
  - destruct s; inversion R; inversion C; subst. cbn. exists l. now split; [left|].
  - destruct (run grammar f p1 s) as [| |s1 t1] eqn:R1; try discriminate.
    destruct (run grammar f p2 s1) as [| |s2 t2] eqn:R2; try discriminate. inversion R; subst.
    destruct (check p1 l) as [l1|] eqn:C1; [|discriminate]. rewrite exec_app.
    pose proof (IH f H1 _ _ _ _ R1 _ _ _ _ C1 S) as G1.
    destruct (exec t1 st) as [st1| | | |]; try exact G1. cbn in G1. destruct G1 as [y [I Y]].
    destruct (bindo_In _ _ _ _ C I) as [z [C2 M]].
    pose proof (IH f H1 _ _ _ _ R2 _ _ _ _ C2 Y) as G2.
    destruct (exec t2 st1) as [st2| | | |]; try exact G2. cbn in G2 |- *. destruct G2 as [w [I2 W]].
    exists w. split; auto.
  - destruct (check p1 l) as [l1|] eqn:C1; [|discriminate].
    destruct (check p2 l) as [l2|] eqn:C2; [|discriminate]. inversion C; subst.
    destruct (run grammar f p1 s) as [| |s1 t1] eqn:R1; try discriminate.
    + pose proof (IH f H1 _ _ _ _ R _ _ _ _ C2 S) as G.
      destruct (exec toks st) as [st1| | | |]; try exact G. cbn in G |- *. destruct G as [y [I Y]].
      exists y. split; [apply in_or_app; now right|assumption].
    + inversion R; subst.
      pose proof (IH f H1 _ _ _ _ R1 _ _ _ _ C1 S) as G.
      destruct (exec toks st) as [st1| | | |]; try exact G. cbn in G |- *. destruct G as [y [I Y]].
      exists y. split; [apply in_or_app; now left|assumption].
  - destruct (check p l) as [x|] eqn:C1; [|discriminate].
    destruct (forallb _ x) eqn:F; [|discriminate]. inversion C; subst.
    destruct (run grammar f p s) as [| |s1 t1] eqn:R1; try discriminate.
    + inversion R; subst. cbn. exists l. now split; [left|].
    + destruct (run grammar f (PStar p) s1) as [| |s2 t2] eqn:R2; try discriminate. inversion R; subst.
      rewrite exec_app.
      pose proof (IH f H1 _ _ _ _ R1 _ _ _ _ C1 S) as G1.
      destruct (exec t1 st) as [st1| | | |]; try exact G1. cbn in G1. destruct G1 as [y [I Y]].
      rewrite forallb_forall in F. pose proof (F y I) as Fy.
      destruct (check p y) as [ys|] eqn:Cy; [|discriminate].
      pose proof (star_inv f p (fun f' L => IH f' ltac:(lia) p) y ys Cy Fy f _ _ _ (le_n _) R2 base st1 Y) as G2.
      destruct (exec t2 st1) as [st2| | | |]; try exact G2. cbn in G2 |- *. destruct G2 as [w [[<-|[]] W]].
      exists y. split; auto.
  - destruct (check p l) as [x|] eqn:C1; [|discriminate].
    destruct (forallb _ x) eqn:F; [|discriminate]. inversion C; subst.
    destruct (run grammar f p s) as [| |s1 t1] eqn:R1; try discriminate.
      destruct (run grammar f (PStar p) s1) as [| |s2 t2] eqn:R2; try discriminate. inversion R; subst.
      rewrite exec_app.
      pose proof (IH f H1 _ _ _ _ R1 _ _ _ _ C1 S) as G1.
      destruct (exec t1 st) as [st1| | | |]; try exact G1. cbn in G1. destruct G1 as [y [I Y]].
      rewrite forallb_forall in F. pose proof (F y I) as Fy.
      destruct (check p y) as [ys|] eqn:Cy; [|discriminate].
      pose proof (star_inv f p (fun f' L => IH f' ltac:(lia) p) y ys Cy Fy f _ _ _ (le_n _) R2 base st1 Y) as G2.
      destruct (exec t2 st1) as [st2| | | |]; try exact G2. cbn in G2 |- *. destruct G2 as [w [[<-|[]] W]].
      exists y. split; auto.
  - destruct (check p l) as [x|] eqn:C1; [|discriminate]. inversion C; subst.
    destruct (run grammar f p s) as [| |s1 t1] eqn:R1; try discriminate; inversion R; subst.
    + cbn. exists l. now split; [left|].
    + pose proof (IH f H1 _ _ _ _ R1 _ _ _ _ C1 S) as G.
      destruct (exec toks st) as [st1| | | |]; try exact G. cbn in G |- *. destruct G as [y [I Y]].
      exists y. split; [now right|assumption].
  - destruct (run grammar f p s); inversion R; inversion C; subst. cbn. exists l. now split; [left|].
  - destruct (run grammar f (grammar r) s) as [| |s1 t1] eqn:R1; try discriminate. inversion R; subst. clear R.
    pose proof (rules_ok r) as RO. unfold ruleok in RO.
    destruct (decl r) as [[pre post]|]; [|discriminate].
    destruct (strip pre l) as [rest|] eqn:St; [|discriminate]. inversion C; subst.
    destruct (strip_shape _ _ _ _ _ St S) as [base' [S1 S2]].
    destruct (check (grammar r) pre) as [l1|] eqn:C1; [|discriminate].
    rewrite exec_app. pose proof (IH f H1 _ _ _ _ R1 _ _ _ _ C1 S1) as G1.
    destruct (exec t1 st) as [st1| | | |]; try exact G1. cbn in G1. destruct G1 as [y [I Y]].
    rewrite forallb_forall in RO. specialize (RO y I).
    destruct (actionTy r y) as [y'|] eqn:A; [|discriminate].
    cbn [Parser.exec t_rule].
    pose proof (action_good parseFloat path stubPath r (contentsOf src total {| t_rule := r; t_begin := length s; t_end := length s' |}) y y' base' st1 A Y) as G2.
    destruct (action _ _ _ _ _ _) as [st2| | | |]; try exact G2. cbn in G2 |- *.
    exists (post ++ rest). split; [now left|].
    apply (shape_app _ _ _ base'); [|assumption]. now apply (below_shape y').
Qed.
End S2.

Lemma Parse_no_panic parseFloat path stubPath f src : Parse parseFloat path stubPath f src <> ParsePanic.
Proof.
  unfold Parse. destruct (run grammar f (PRule R_Dynaml) (runes src)) as [| |s' toks] eqn:R; try discriminate.
  destruct f as [|f]; [discriminate|]. cbn [run] in R.
  destruct (run grammar f (grammar R_Dynaml) (runes src)) as [| |s1 t1] eqn:R1; try discriminate.
  inversion R; subst. rewrite exec_app.
  assert (C : exists ls, check (grammar R_Dynaml) [] = Some ls /\ forallb (fun l => below l [KE]) ls = true)
    by (eexists; split; vm_compute; reflexivity).
  destruct C as [ls [C B]].
  pose proof (check_sound parseFloat path stubPath src (length (runes src)) f _ _ _ _ R1 [] ls [] start C) as G.
  destruct (exec _ _ _ _ _ t1 start) as [st| | | |]; try discriminate; try (exfalso; apply G; now exists []).
  cbn [Parser.exec t_rule]. destruct G as [l [I S]]; [now exists []|].
  rewrite forallb_forall in B. apply B in I. apply (below_shape _ _ _ _ I) in S.
  destruct S as [its [E F]]. inversion F as [|k i ? ? Hk F']; subst. inversion F'; subst.
  destruct st as [stk ? ? ? ?]. cbn in E. subst. destruct i; discriminate.
Qed.
