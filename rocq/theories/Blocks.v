(** YAML literal blocks as characters.
    Models legacy/candiedyaml/emitter.go:1925-2012 (write_block_scalar_hints,
    write_literal_scalar) and scanner.go:2541-2845 (yaml_parser_scan_block_scalar for literal
    scalars, yaml_parser_scan_block_scalar_breaks).  Line breaks of the written text are LF; the
    reader reads lines byte by byte (characters of several bytes are read whole by the program,
    which makes no difference for UTF-8 texts).
    No proofs in this file. *)
From Verif Require Import Core Str Comparison Yaml Scalars.
Import ListNotations.
Open Scope string_scope. Open Scope list_scope.

(** emitter.go:1925-1969: the second loop for the last character starts at the line break it
    has already found, so every text with a line break at the end gets a plus *)
Definition hints (l : list ascii) : list ascii :=
  (match l with c :: _ => if isSp c || Ascii.eqb c LF then ["2"%char] else [] | [] => [] end) ++
  [if match rev l with c :: _ => Ascii.eqb c LF | [] => false end then "+"%char else "-"%char].
(** emitter.go:1990-2009; [breaks]: at the beginning of a line *)
Fixpoint literalBody (indent : nat) (breaks : bool) (p : pen) (l : list ascii) : list ascii :=
  match l with
  | [] => []
  | c :: r =>
    if Ascii.eqb c LF then LF :: literalBody indent true (mkPen 0 (whitespace p) true) r
    else
      let (w, p) := if breaks then writeIndent indent p else ([], p) in
      w ++ c :: literalBody indent false (mkPen (column p + 1) (whitespace p) false) r
  end.
(** emitter.go:1971-1989; the blank in front is left out *)
Definition writeLiteral (parent : option nat) (l : list ascii) : list ascii :=
  "|"%char :: hints l ++ LF :: literalBody (scalarIndent parent) true (mkPen 0 true true) l.

(** scanner.go:2775-2836: the line breaks, the greatest indentation, the column and the rest *)
Fixpoint blockBreaks (n indent maxi col : nat) (breaks l : list ascii) : read (list ascii * nat * nat * list ascii) :=
  match n with
  | O => Bad
  | S n =>
    match l with
    | [] => Got (breaks, Nat.max maxi col, col, [])
    | c :: r =>
      let inside := Nat.eqb indent 0 || Nat.ltb col indent in
      if inside && isSp c then blockBreaks n indent maxi (col + 1) breaks r
      else if inside && Ascii.eqb c "009" then Bad
      else if breakAt l then let (b, r) := lineBreak l in blockBreaks n indent (Nat.max maxi col) 0 (breaks ++ b) r
      else Got (breaks, Nat.max maxi col, col, l)
    end
  end.
(** scanner.go:2722-2727 *)
Fixpoint lineOf (l : list ascii) : list ascii * list ascii :=
  match l with
  | [] => ([], [])
  | c :: r => if breakAt l || Ascii.eqb c "000" then ([], l) else let (a, b) := lineOf r in (c :: a, b)
  end.
Inductive chomp := Strip | Clip | Keep.
(** scanner.go:2684-2755 *)
Fixpoint blockLines (n indent : nat) (ch : chomp) (lead tb : list ascii) (col : nat) (l : list ascii) : read (list ascii * list ascii) :=
  match n with
  | O => Bad
  | S n =>
    if Nat.eqb col indent && match l with c :: _ => negb (Ascii.eqb c "000") | [] => false end then
      let (line, r) := lineOf l in
      let (lb, r2) := if breakAt r then lineBreak r else ([], r) in
      match blockBreaks (Datatypes.S (List.length r2)) indent 0 (match lb with [] => col + List.length line | _ => 0 end)%nat [] r2 with
      | Got (tb2, _, col2, r3) => afterR (lead ++ tb ++ line) (blockLines n indent ch lb tb2 col2 r3)
      | Bad => Bad
      | Crash => Crash
      end
    else Got ((match ch with Strip => [] | _ => lead end) ++ (match ch with Keep => tb | _ => [] end), l)
  end.
(** scanner.go:2556-2617: the chomping indicator and the indentation indicator in any order *)
Definition chompOf (l : list ascii) : option chomp * list ascii :=
  match l with c :: r => if Ascii.eqb c "+" then (Some Keep, r) else if Ascii.eqb c "-" then (Some Strip, r) else (None, l) | [] => (None, l) end.
Definition incrementOf (l : list ascii) : option nat * list ascii :=
  match l with c :: r => if isDigit c then (Some (Z.to_nat (bytev c - 48)), r) else (None, l) | [] => (None, l) end.
Definition header (l : list ascii) : chomp * option nat * list ascii :=
  match chompOf l with
  | (Some ch, r) => let (i, r) := incrementOf r in (ch, i, r)
  | (None, _) => match incrementOf l with
                 | (Some i, r) => let (ch, r) := chompOf r in (match ch with Some ch => ch | None => Clip end, Some i, r)
                 | (None, _) => (Clip, None, l)
                 end
  end.
(** scanner.go:2625-2657: blanks and a comment up to the end of the line *)
Definition endOfLine (l : list ascii) : option (list ascii) :=
  let r := snd (span isBlank l) in
  let r := match r with c :: _ => if Ascii.eqb c "#" then snd (lineOf r) else r | [] => r end in
  match r with [] => Some [] | c :: _ => if breakAt r then Some (snd (lineBreak r)) else if Ascii.eqb c "000" then Some r else None end.
(** scanner.go:2541-2768 behind the bar; [k] = parser.indent + 1 *)
Definition scanLiteral (k : nat) (l : list ascii) : read (list ascii * list ascii) :=
  match header l with
  | (_, Some O, _) => Bad
  | (ch, i, r) =>
    match endOfLine r with
    | None => Bad
    | Some r =>
      let indent := match i with Some i => if Nat.eqb k 0 then i else (k - 1 + i)%nat | None => 0%nat end in
      match blockBreaks (Datatypes.S (List.length r)) indent 0 0 [] r with
      | Got (tb, maxi, col, r) =>
        let indent := if Nat.eqb indent 0 then Nat.max maxi (Nat.max k 1) else indent in
        blockLines (Datatypes.S (List.length r)) indent ch [] tb col r
      | Bad => Bad
      | Crash => Crash
      end
    end
  end.
