(** dynaml/expression.go: combination of evaluation infos (the record itself is
    in Flow.v).  No proofs in this file. *)
From Verif Require Import Core Str Flow.

(** expression.go:218-222 CleanError *)
Definition cleanError (i : info) : info :=
  mkInfo (f_redirect i) (f_replace i) (f_merged i) (f_preferred i) (f_keyName i) (f_source i)
         false false false (f_raw i) noIssue (f_flags i).
(** expression.go:232-260 Join (the list of cleanups is left out) *)
Definition join (i o : info) : info :=
  mkInfo (match f_redirect o with Some r => Some r | None => f_redirect i end)
         (f_replace o)
         (f_merged i || f_merged o)
         (f_preferred i || f_preferred o)
         (if String.eqb (f_keyName o) "" then f_keyName i else f_keyName o)
         (f_source i)
         (f_localError i || f_localError o)
         (f_failed i || f_failed o)
         (f_undefined i || f_undefined o)
         (f_raw i)
         (if String.eqb (i_text (f_issue o)) "" then f_issue i else f_issue o)
         (N.lor (f_flags i) (f_flags o)).
(** assignments to single fields of an EvaluationInfo *)
Definition setIssue (t : string) (i : info) : info :=
  mkInfo (f_redirect i) (f_replace i) (f_merged i) (f_preferred i) (f_keyName i) (f_source i)
         (f_localError i) (f_failed i) (f_undefined i) (f_raw i) (newIssue t) (f_flags i).
Definition setUndef (u : bool) (i : info) : info :=
  mkInfo (f_redirect i) (f_replace i) (f_merged i) (f_preferred i) (f_keyName i) (f_source i)
         (f_localError i) (f_failed i) u (f_raw i) (f_issue i) (f_flags i).
Definition setFailed (u : bool) (i : info) : info :=
  mkInfo (f_redirect i) (f_replace i) (f_merged i) (f_preferred i) (f_keyName i) (f_source i)
         (f_localError i) u (f_undefined i) (f_raw i) (f_issue i) (f_flags i).
Definition setKeyName (k : string) (i : info) : info :=
  mkInfo (f_redirect i) (f_replace i) (f_merged i) (f_preferred i) k (f_source i)
         (f_localError i) (f_failed i) (f_undefined i) (f_raw i) (f_issue i) (f_flags i).
Definition setPreferred (i : info) : info :=
  mkInfo (f_redirect i) (f_replace i) (f_merged i) true (f_keyName i) (f_source i)
         (f_localError i) (f_failed i) (f_undefined i) (f_raw i) (f_issue i) (f_flags i).
Definition setSource (s : string) (i : info) : info :=
  mkInfo (f_redirect i) (f_replace i) (f_merged i) (f_preferred i) (f_keyName i) s
         (f_localError i) (f_failed i) (f_undefined i) (f_raw i) (f_issue i) (f_flags i).
(** yaml/node.go:126-128 AddFlags on the flags of an info *)
Definition addInfoFlags (f : flags) (i : info) : info :=
  mkInfo (f_redirect i) (f_replace i) (f_merged i) (f_preferred i) (f_keyName i) (f_source i)
         (f_localError i) (f_failed i) (f_undefined i) (f_raw i) (f_issue i) (N.lor (f_flags i) f).
