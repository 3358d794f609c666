(** C48, C49: dynaml texts and the expressions read from them. *)
From Verif Require Import Core Str DecSpec Peg PegFacts Grammar Eval Parser ParserFacts ParserRead Written ParserClean ParserRun ParserAscii ParserRange.
From Coq Require Import SpecFloat Lia PeanoNat.
Import ListNotations.

Section P.
Variable parseFloat : string -> option spec_float.
Variable path stubPath : list string.
Notation Parse := (Parse parseFloat path stubPath).
Notation source := (source path stubPath).

(** ** C48: every text has an answer *)
(** Parsing comes to an end for every text: from some number of steps on the answer
    is an expression, an error or the crash on a number, and it does not change any more. *)
Theorem C48_parsing_ends src : exists f r, r <> ParseFuel /\ forall f', (f <= f')%nat -> Parse f' src = r.
Proof.
  destruct (grammar_terminates (PRule R_Dynaml) (runes src)) as [f H]; [reflexivity|].
  exists f, (Parse f src). unfold Parse. split.
  - destruct (run grammar f (PRule R_Dynaml) (runes src)) as [| |s t]; [congruence|discriminate|].
    now destruct (exec _ _ _ _ _ t start).
  - intros f' L. now rewrite (run_le rule grammar f f').
Qed.
(** the answer is unique *)
Theorem C48_one_answer src f f' : Parse f src <> ParseFuel -> Parse f' src <> ParseFuel -> Parse f src = Parse f' src.
Proof.
  destruct (C48_parsing_ends src) as [f0 [r [_ H]]].
  assert (X : forall f, Parse f src <> ParseFuel -> Parse f src = r).
  { intros g N. rewrite <- (H (g + f0)%nat) by lia. unfold Parse in *.
    rewrite (run_le rule grammar g (g + f0)); [reflexivity|lia|].
    intros E. rewrite E in N. now apply N. }
  intros A B. now rewrite (X f A), (X f' B).
Qed.
(** The construction of the expression never meets a stack it does not expect. *)
Theorem C48_no_panic src f : Parse f src <> ParsePanic.
Proof. apply Parse_no_panic. Qed.
(** The only crash is a number without a value somewhere in the text. *)
Theorem C48_crash_needs_number s f : Forall isAscii s -> Parse f (ofchars s) = ParseRange ->
  exists a fl w b, s = a ++ w ++ b /\ numeral fl w /\ noValue parseFloat fl w.
Proof. apply Parse_range. Qed.

(** ** C49: a written expression is read as this expression *)
Theorem C49_written_is_read e t : source e t -> exists f, forall f', (f <= f')%nat -> Parse f' (ofchars t) = ParseOk e.
Proof. intros S. apply go_Parse; [now apply (source_ascii path stubPath e)|now apply reads_source]. Qed.
(** The spec of texts is unambiguous: the precedences determine the expression. *)
Theorem C49_unambiguous e e' t : source e t -> source e' t -> e = e'.
Proof.
  intros S S'. destruct (C49_written_is_read e t S) as [f H], (C49_written_is_read e' t S') as [f' H'].
  specialize (H (f + f')%nat ltac:(lia)). specialize (H' (f + f')%nat ltac:(lia)). congruence.
Qed.
(** Grouping never changes what is inside of the parentheses. *)
Theorem C49_group e t : source e t -> (forall x, e <> EPrefer x) -> (forall l x, e <> EMarker l x) ->
  exists f, forall f', (f <= f')%nat -> Parse f' (ofchars ("("%char :: t ++ [")"%char])) = ParseOk (EGroup e).
Proof.
  intros S N N'. apply C49_written_is_read. destruct S as [g e t g' G W G'|g g1 e t g' G G1 W G'|g l u g' G M G'|g l u g1 g2 e t g3 g' G M G1 G2 W G3 G'];
    [|now contradiction (N e)|now contradiction (N' l None)|exfalso; eapply N'; reflexivity].
  pose proof (S_expr path stubPath [] (EGroup e) ("("%char :: g ++ t ++ g' ++ [")"%char]) []) as X.
  rewrite app_nil_r in X. cbn [app] in X. rewrite <- !app_assoc.
  apply X; [constructor| |constructor].
  apply W_open, (W_up _ _ _ 0); [lia|]. apply W_operand, O_group; assumption.
Qed.
End P.

(** ** examples *)
Definition noFloat (_ : string) : option spec_float := None.
Definition parse (t : string) : parsed := Parse noFloat [] [] 2000 t.
Notation V x := (ERef "" [x%string]).
(** precedence *)
Example ex_prec : parse "a.b + 3 * c(1, x...) == d || map[l|x|->x . [0]]" = ParseErr. Proof. vm_compute. reflexivity. Qed.
Example ex_prec2 : parse "a.b + 3 * c(1, x...) == d || map[l|x|->x.[0]]" =
  ParseOk (EOr (ECmp (EAdd (ERef "" ["a"; "b"]%string) (EMul (EInt 3) (ECall (V "c") [EInt 1; EExpand (V "x")] false))) "==" (V "d"))
               (EMapping MapToList (V "l") (ELambda [("x"%string, None)] false (ERef "" ["x"; "[0]"]%string)))).
Proof. vm_compute. reflexivity. Qed.
(** concatenation binds weaker than arithmetic *)
Example ex_concat : parse "a 1 + 2" = ParseOk (EConcat (V "a") (EAdd (EInt 1) (EInt 2))). Proof. vm_compute. reflexivity. Qed.
(** the hypotheses of C49 on a text *)
Example ex_source : source [] [] (EOr (V "a") (EAdd (V "b") (EInt 12))) (chars "a || b + 12 ").
Proof.
  change (chars "a || b + 12 ") with ([] ++ (chars "a" ++ chars " " ++ chars "||" ++ chars " " ++ (chars "b" ++ chars " " ++ chars "+" ++ chars " " ++ chars "12")) ++ chars " ").
  assert (Sp : space (chars " ")) by (split; [constructor; [now left|constructor]|discriminate]).
  assert (R : forall c, In c ["a"; "b"]%char -> written [] [] false 0 (ERef "" [ofchars [c]]) [c]).
  { intros c I. apply W_operand. pose proof (O_ref [] [] [c] []) as X. cbn in X. apply X; [|constructor].
    cbn in I. destruct I as [<-|[<-|[]]]; (split; [split; [reflexivity|constructor]|]; split; [reflexivity|]; split;
      [repeat constructor; intros [r E]; discriminate|repeat constructor; discriminate]). }
  assert (L : literal "12" 12).
  { left. change 12 with (10 * 1 + 2). apply (dec_more "1" 1 "2" 2); [|constructor]. repeat constructor. }
  apply S_expr; [constructor| |apply Sp].
  apply W_open, (W_up _ _ _ 7); [lia|]. apply (W_binary [] [] false 7 "||" EOr); [constructor| |assumption|assumption|].
  - apply (W_up _ _ _ 0); [lia|]. apply (R "a"%char). cbn; tauto.
  - apply (W_up _ _ _ 2); [cbn; lia|]. apply (W_binary [] [] false 2 "+" EAdd); [constructor| |assumption|assumption|].
    + apply (W_up _ _ _ 0); [lia|]. apply (R "b"%char). cbn; tauto.
    + apply (W_up _ _ _ 0); [lia|]. apply (W_int [] [] "12" 12 L). unfold in64, min64, max64. lia.
Qed.
(** a merge with default, a redirecting merge on a key field, markers *)
Example ex_merge : source ["a"; "b"]%string ["c"; "b"]%string (EOr (EMerge ["c"; "b"]%string true false true false "") ENil) (chars "merge || nil").
Proof.
  change (chars "merge || nil") with ([] ++ ((chars "merge" ++ []) ++ chars " " ++ chars "||" ++ chars " " ++ chars "nil") ++ []).
  assert (Sp : space (chars " ")) by (split; [constructor; [now left|constructor]|discriminate]).
  apply S_expr; [constructor| |constructor]. apply W_open, (W_up _ _ _ 7); [lia|].
  apply (W_mergeor _ _ false "||" EOr); [apply (OM ["a"; "b"]%string ["c"; "b"]%string false ""%string []); constructor|constructor|assumption|assumption|].
  apply (W_up _ _ _ 0); [lia|]. apply W_nil.
Qed.
Example ex_mergeon : source [] [] (EMerge ["x"; "y"]%string true false true false "id") (chars "merge on id x.y").
Proof.
  change (chars "merge on id x.y") with ([] ++ (chars "merge" ++ (chars " " ++ chars "on" ++ chars " " ++ chars "id") ++ chars " " ++ chars "x.y") ++ []).
  assert (Sp : space (chars " ")) by (split; [constructor; [now left|constructor]|discriminate]).
  apply S_expr; [constructor| |constructor]. apply W_open, (W_up _ _ _ 0); [lia|]. apply W_merge.
  apply (FM_ref _ _ false "id"%string _ (chars " ") ["x"; "y"]%string (chars "x.y")); [apply (MO_on _ _ (chars "id"))| | |]; trivial.
  - split; [discriminate|repeat constructor].
  - apply (MR_ref (chars "x") [Field (chars "y")]); [split; [reflexivity|constructor]| |intros [E _]; discriminate].
    constructor; [split; [reflexivity|constructor]|constructor].
  - discriminate.
Qed.
Example ex_marker : source [] [] (EMarker ["&temporary"; "&local"]%string (Some (EMarkExpr "( nil )" (EGroup ENil)))) (chars "&temporary &local ( nil )").
Proof.
  change (chars "&temporary &local ( nil )") with ([] ++ (chars "&temporary" ++ chars " " ++ chars "&local" ++ []) ++ chars " " ++ "("%char :: chars " " ++ chars "nil" ++ chars " " ++ [")"%char] ++ []).
  assert (Sp : space (chars " ")) by (split; [constructor; [now left|constructor]|discriminate]).
  apply (S_marker _ _ [] ["&temporary"; "&local"]%string _ (chars " ") (chars " ") ENil (chars "nil") (chars " ") []); [constructor| |apply Sp|apply Sp| |apply Sp|constructor].
  - apply (MK (chars "&temporary")); [right; now left|].
    apply (MK_more (chars " ") (chars "&local") [] []); [assumption|right; right; now left|constructor].
  - apply (W_up _ _ _ 0); [lia|]. apply W_open, W_nil.
Qed.
Example ex_numeral : numeral false (chars "99999999999999999999").
Proof. apply (N_int [] "9"%char (chars "9999999999999999999")); [now left|reflexivity|repeat (constructor; [now left|]); constructor]. Qed.

(** ** what does not hold *)
(** a number beyond 64 bit crashes the program instead of giving an error *)
Theorem C48_crash_refuted : parse "99999999999999999999" = ParseRange.
Proof. vm_compute. reflexivity. Qed.
(** A string literal with a character that is no ASCII character is a syntax error,
    unless it ends with an escaped quote that is taken for its end; the text after it is
    then read at wrong positions, so that even a small number crashes the program. *)
Definition umlaut : text := ["195"%char; "188"%char].
Theorem C49_string_refuted : parse (ofchars ("034"%char :: umlaut ++ ["034"%char])) = ParseErr /\
  parse (ofchars ("034"%char :: umlaut ++ ["\"; "\"; "034"; "034"]%char)) = ParseOk (EStr (ofchars (umlaut ++ ["\"%char]))) /\
  parse (ofchars ("034"%char :: umlaut ++ ["\"; "\"; "034"; "034"; " "; "7"; "7"]%char)) = ParseRange.
Proof. vm_compute. repeat split. Qed.
(** Names that begin with a keyword are not readable as references. *)
Theorem C49_names_refuted :
  Forall (fun n => parse n = ParseErr) ["nilpotent"; "automatic"; "trueish"; "falsey"; "merged"]%string.
Proof. repeat (constructor; [vm_compute; reflexivity|]). constructor. Qed.
(** A string that ends with a backslash cannot be written. *)
Theorem C49_backslash_refuted : parse (ofchars ["034"; "a"; "\"; "\"; "034"]%char) = ParseErr.
Proof. vm_compute. reflexivity. Qed.
(** A colon without any blank is part of a name; a minus sign before a number is no operator. *)
Theorem C49_blanks_refuted : parse "c ? a:b" = ParseErr /\ parse "a -1" = ParseOk (EConcat (V "a") (EInt (-1))) /\
  parse "a-1" = ParseOk (V "a-1") /\ parse "a+1" = ParseErr.
Proof. vm_compute. repeat split. Qed.

Print Assumptions C48_parsing_ends.

Print Assumptions C48_one_answer.
Print Assumptions C48_no_panic.
Print Assumptions C48_crash_needs_number.
Print Assumptions C49_written_is_read.
Print Assumptions C49_unambiguous.
Print Assumptions C49_group.
Print Assumptions C48_crash_refuted.
Print Assumptions C49_string_refuted.
Print Assumptions C49_names_refuted.
Print Assumptions C49_backslash_refuted.
Print Assumptions C49_blanks_refuted.
