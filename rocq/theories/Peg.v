(** Parsing expression grammars as executed by the parser that
    github.com/pointlander/peg generates (dynaml/dynaml.peg.go:640-760): ordered
    choice, greedy repetition without backtracking, and a list of tokens that is
    cut back when an alternative fails.  No proofs in this file. *)
From Verif Require Import Core Str.
Import ListNotations.

(** the generated code works on a slice of runes (dynaml.peg.go:655); a rune is
    the text of its encoding here, see [runes] in Str.v.  The end symbol appended
    by dynaml.peg.go:656-658 is the end of the list. *)
Inductive peg (rule : Type) :=
| PEps                                   (* {} *)
| PLit (s : string)                      (* 'abc' *)
| PSet (l : list (ascii * ascii))        (* [a-zA-Z_] *)
| PAny                                   (* . *)
| PSeq (a b : peg rule)
| PAlt (a b : peg rule)
| PStar (a : peg rule)
| PPlus (a : peg rule)
| POpt (a : peg rule)
| PNot (a : peg rule)
| PRule (r : rule).
Arguments PEps {rule}. Arguments PLit {rule}. Arguments PSet {rule}. Arguments PAny {rule}.
Arguments PSeq {rule}. Arguments PAlt {rule}. Arguments PStar {rule}. Arguments PPlus {rule}.
Arguments POpt {rule}. Arguments PNot {rule}. Arguments PRule {rule}.

Definition inSet (l : list (ascii * ascii)) (c : ascii) : bool :=
  existsb (fun r => (bytev (fst r) <=? bytev c) && (bytev c <=? bytev (snd r))) l.
(** the tests of the generated code against a literal rune *)
Definition isChar (c : ascii) (r : string) : bool := String.eqb r (String c EmptyString).
Definition runeIn (l : list (ascii * ascii)) (r : string) : bool :=
  match r with
  | String c EmptyString => inSet l c
  | _ => false
  end.
Fixpoint eat (lit : list ascii) (s : list string) : option (list string) :=
  match lit with
  | [] => Some s
  | c :: l => match s with
              | r :: s' => if isChar c r then eat l s' else None
              | [] => None
              end
  end.

(** token32: a token is known by its rule, and by the number of runes that are
    still to be read at its begin and at its end *)
Record token (rule : Type) := mkTok { t_rule : rule; t_begin : nat; t_end : nat }.
Arguments mkTok {rule}. Arguments t_rule {rule}. Arguments t_begin {rule}. Arguments t_end {rule}.

(** failure, or the remaining text and the tokens in the order of [add]
    (dynaml.peg.go:681-689: at the end of a rule) *)
Inductive pres (rule : Type) := RunFuel | RunFail | RunOk (rest : list string) (toks : list (token rule)).
Arguments RunFuel {rule}. Arguments RunFail {rule}. Arguments RunOk {rule}.

Section Run.
Variable rule : Type.
Variable g : rule -> peg rule.
(** the functions of dynaml.peg.go:720 ff. *)
Fixpoint run (f : nat) (p : peg rule) (s : list string) {struct f} : pres rule :=
  match f with
  | O => RunFuel
  | S f =>
      match p with
      | PEps => RunOk s []
      | PLit l => match eat (chars l) s with Some s' => RunOk s' [] | None => RunFail end
      | PSet l => match s with
                  | r :: s' => if runeIn l r then RunOk s' [] else RunFail
                  | [] => RunFail
                  end
      | PAny => match s with _ :: s' => RunOk s' [] | [] => RunFail end
      | PSeq a b => match run f a s with
                    | RunOk s' t => match run f b s' with
                                  | RunOk s'' t' => RunOk s'' (t ++ t')
                                  | x => x
                                  end
                    | x => x
                    end
      | PAlt a b => match run f a s with
                    | RunFail => run f b s
                    | x => x
                    end
      | PStar a => match run f a s with
                   | RunOk s' t => match run f (PStar a) s' with
                                 | RunOk s'' t' => RunOk s'' (t ++ t')
                                 | x => x
                                 end
                   | RunFail => RunOk s []
                   | RunFuel => RunFuel
                   end
      | PPlus a => match run f a s with
                   | RunOk s' t => match run f (PStar a) s' with
                                 | RunOk s'' t' => RunOk s'' (t ++ t')
                                 | x => x
                                 end
                   | x => x
                   end
      | POpt a => match run f a s with
                  | RunFail => RunOk s []
                  | x => x
                  end
      | PNot a => match run f a s with
                  | RunOk _ _ => RunFail
                  | RunFail => RunOk s []
                  | RunFuel => RunFuel
                  end
      | PRule r => match run f (g r) s with
                   | RunOk s' t => RunOk s' (t ++ [mkTok r (length s) (length s')])
                   | x => x
                   end
      end
  end.
End Run.
Arguments run {rule}.
