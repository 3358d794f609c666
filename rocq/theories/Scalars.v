(** YAML scalars as characters: how the texts of scalars are written and read.
    Models legacy/candiedyaml/emitter.go:40-135 (put, put_break, write), 1483-1506
    (yaml_emitter_write_indent), 1625-1680 (write_plain_scalar), 1684-1750
    (write_single_quoted_scalar), 1752-1915 (write_double_quoted_scalar); scanner.go:512-595 (skip,
    skip_line, read, read_line), 2844-3133 (yaml_parser_scan_flow_scalar), 3142-3330
    (yaml_parser_scan_plain_scalar).
    The buffers are lists of bytes; the reader before the scanner (encodings, characters that are
    not allowed) is left out: theorem C63_ascii shows that what is written is printable ASCII and
    line breaks.  The emitter runs with the options of spiff: line break LF, unicode = false,
    best_width = 80.
    No proofs in this file. *)
From Verif Require Import Core Str Comparison Yaml.
Import ListNotations.
Open Scope string_scope. Open Scope list_scope.

Definition LF : ascii := "010".
Definition quote2 : ascii := "034".
Definition backslash : ascii := "\".
Definition isSp (c : ascii) : bool := Ascii.eqb c " ".

(** ** writing *)
(** the state of the emitter that matters here *)
Record pen := mkPen { column : nat; whitespace : bool; indention : bool }.
(** k bytes are written by put or write *)
Definition advance (p : pen) (k : nat) : pen := mkPen (column p + k) (whitespace p) (indention p).
(** emitter.go:1483-1506 *)
Definition writeIndent (indent : nat) (p : pen) : list ascii * pen :=
  let fresh := negb (indention p) || Nat.ltb indent (column p) || (Nat.eqb (column p) indent && negb (whitespace p)) in
  let col := if fresh then 0%nat else column p in
  ((if fresh then [LF] else []) ++ repeat " "%char (indent - col), mkPen (Nat.max col indent) true true).
Definition bestWidth : nat := 80.

(** emitter.go:1767-1786: the value of the character in front; width 0 (no first byte of a
    character) repeats the loop at the same position *)
Definition runeAt (l : list ascii) : outcome Z :=
  match l with
  | [] => Panics
  | a :: r =>
    let cont k v := match nth_error r k with Some b => Some (v * 64 + bytev b mod 64)%Z | None => None end in
    match width a with
    | 1%nat => Done (bytev a mod 128)%Z
    | 2%nat => need (cont 0%nat (bytev a mod 32)%Z) (fun v => Done v)
    | 3%nat => need (cont 0%nat (bytev a mod 16)%Z) (fun v => need (cont 1%nat v) (fun v => Done v))
    | 4%nat => need (cont 0%nat (bytev a mod 8)%Z) (fun v => need (cont 1%nat v) (fun v => need (cont 2%nat v) (fun v => Done v)))
    | _ => Hangs
    end
  end.
(** emitter.go:1797-1855: characters with a letter of their own *)
Definition letters : list (Z * ascii) :=
  [(0, "0"); (7, "a"); (8, "b"); (9, "t"); (10, "n"); (11, "v"); (12, "f"); (13, "r"); (27, "e"); (34, quote2); (92, backslash);
   (133, "N"); (160, "_"); (8232, "L"); (8233, "P")]%Z%char.
(** emitter.go:1875-1885 *)
Definition hexDigit (d : Z) : ascii := byteof (if (d >? 9)%Z then d + 65 - 10 else d + 48)%Z.
Fixpoint hexOf (k : nat) (v : Z) : list ascii :=
  match k with O => [] | S k => hexDigit ((v / 16 ^ Z.of_nat k) mod 16)%Z :: hexOf k v end.
(** emitter.go:1790-1887 *)
Definition escape (v : Z) : list ascii :=
  backslash :: match find (fun p => Z.eqb (fst p) v) letters with
               | Some p => [snd p]
               | None => if (v <=? 255)%Z then "x"%char :: hexOf 2 v else if (v <=? 65535)%Z then "u"%char :: hexOf 4 v else "U"%char :: hexOf 8 v
               end.
Definition after (w : list ascii) (x : outcome (list ascii)) : outcome (list ascii) :=
  match x with Done l => Done (w ++ l) | Panics => Panics | Hangs => Hangs end.
(** emitter.go:1761-1909: between the quotes; [first]: i = 0 *)
Fixpoint writeDouble (n : nat) (breaks : bool) (indent : nat) (first spaces : bool) (p : pen) (l : list ascii) : outcome (list ascii) :=
  match l, n with
  | [], _ => Done []
  | _, O => Hangs
  | c :: r, S n =>
    need (isPrintable l) (fun printable =>
    need (if negb printable || (128 <=? bytev c)%Z then Some true else
          match isBreak l with Some b => Some (b || Ascii.eqb c quote2 || Ascii.eqb c backslash) | None => None end) (fun special =>
    if special then
      match runeAt l with
      | Done v => let e := escape v in
                  after e (writeDouble n breaks indent false false (advance p (List.length e)) (skipn (width c) l))
      | Panics => Panics
      | Hangs => Hangs
      end
    else if isSp c then
      if breaks && negb spaces && Nat.ltb bestWidth (column p) && negb first && negb (match r with [] => true | _ => false end) then
        let (w, p) := writeIndent indent p in
        match r with
        | d :: _ => if isSp d then after (w ++ [backslash]) (writeDouble n breaks indent false true (advance p 1) r)
                    else after w (writeDouble n breaks indent false true p r)
        | [] => Panics
        end
      else after [c] (writeDouble n breaks indent false true (advance p 1) r)
    else after [c] (writeDouble n breaks indent false false (advance p 1) r)))
  end.
(** emitter.go:1693-1741: between the quotes; texts without line breaks only (texts with line
    breaks are never asked to be plain, Yaml.textStyle) *)
Fixpoint writeSingle (breaks : bool) (indent : nat) (first spaces : bool) (p : pen) (l : list ascii) : list ascii :=
  match l with
  | [] => []
  | c :: r =>
    if isSp c then
      if breaks && negb spaces && Nat.ltb bestWidth (column p) && negb first && match r with d :: _ => negb (isSp d) | [] => false end then
        let (w, p) := writeIndent indent p in w ++ writeSingle breaks indent false true p r
      else c :: writeSingle breaks indent false true (advance p 1) r
    else
      let e := if Ascii.eqb c "'" then [c; c] else [c] in
      e ++ writeSingle breaks indent false false (mkPen (column p + List.length e) (whitespace p) false) r
  end.
(** emitter.go:1636-1671: the same for plain texts *)
Fixpoint writePlain (breaks : bool) (indent : nat) (spaces : bool) (p : pen) (l : list ascii) : outcome (list ascii) :=
  match l with
  | [] => Done []
  | c :: r =>
    if isSp c then
      need (if breaks && negb spaces && Nat.ltb bestWidth (column p) then match r with d :: _ => Some (negb (isSp d)) | [] => None end else Some false) (fun fold =>
      if fold then let (w, p) := writeIndent indent p in after w (writePlain breaks indent true p r)
      else after [c] (writePlain breaks indent true (advance p 1) r))
    else after [c] (writePlain breaks indent false (mkPen (column p + 1) (whitespace p) false) r)
  end.

(** ** reading *)
(** beyond the end of the document the buffer holds zeros *)
Definition padded (l : list ascii) : list ascii := l ++ ["000"; "000"; "000"; "000"]%char.
Definition yes (o : option bool) : bool := match o with Some b => b | None => false end.
Definition breakAt (l : list ascii) : bool := yes (isBreak (padded l)).
Definition blankzAt (l : list ascii) : bool := yes (isBlankz (padded l)).
(** scanner.go:2864-2872 *)
Definition marker (l : list ascii) : bool :=
  match l with
  | a :: b :: c :: r => ((Ascii.eqb a "-" && Ascii.eqb b "-" && Ascii.eqb c "-") || (Ascii.eqb a "." && Ascii.eqb b "." && Ascii.eqb c ".")) && blankzAt r
  | _ => false
  end.
(** scanner.go:564-595 and 519-533: the text of a line break and what follows *)
Definition lineBreak (l : list ascii) : list ascii * list ascii :=
  match l with
  | a :: r =>
    if Ascii.eqb a "013" then match r with b :: r2 => if Ascii.eqb b "010" then ([LF], r2) else ([LF], r) | [] => ([LF], r) end
    else if Ascii.eqb a "010" then ([LF], r)
    else if (bytev a =? 194)%Z then ([LF], skipn 1 r)
    else (firstn 3 l, skipn 3 l)
  | [] => ([], [])
  end.
(** scanner.go:2928-2963 *)
Definition meaning (e : ascii) : option (list ascii) :=
  if Ascii.eqb e "0" then Some ["000"]%char else if Ascii.eqb e "a" then Some ["007"]%char else if Ascii.eqb e "b" then Some ["008"]%char
  else if Ascii.eqb e "t" || Ascii.eqb e "009" then Some ["009"]%char else if Ascii.eqb e "n" then Some [LF]
  else if Ascii.eqb e "v" then Some ["011"]%char else if Ascii.eqb e "f" then Some ["012"]%char else if Ascii.eqb e "r" then Some ["013"]%char
  else if Ascii.eqb e "e" then Some ["027"]%char else if Ascii.eqb e " " then Some [" "]%char else if Ascii.eqb e quote2 then Some [quote2]
  else if Ascii.eqb e "/" then Some ["/"]%char else if Ascii.eqb e backslash then Some [backslash]
  else if Ascii.eqb e "N" then Some ["194"; "133"]%char else if Ascii.eqb e "_" then Some ["194"; "160"]%char
  else if Ascii.eqb e "L" then Some ["226"; "128"; "168"]%char else if Ascii.eqb e "P" then Some ["226"; "128"; "169"]%char else None.
(** scanner.go:2964-2969 *)
Definition codeLength (e : ascii) : option nat :=
  if Ascii.eqb e "x" then Some 2%nat else if Ascii.eqb e "u" then Some 4%nat else if Ascii.eqb e "U" then Some 8%nat else None.
(** yaml_privateh.go:118-136 *)
Definition hexValue (c : ascii) : option Z :=
  let v := bytev c in
  if ((48 <=? v) && (v <=? 57))%Z then Some (v - 48)%Z
  else if ((65 <=? v) && (v <=? 70))%Z then Some (v - 65 + 10)%Z
  else if ((97 <=? v) && (v <=? 102))%Z then Some (v - 97 + 10)%Z else None.
(** scanner.go:2988-2996 *)
Fixpoint hexCode (k : nat) (acc : Z) (l : list ascii) : option (Z * list ascii) :=
  match k, l with
  | O, _ => Some (acc, l)
  | S k, c :: r => match hexValue c with Some d => hexCode k (acc * 16 + d)%Z r | None => None end
  | S _, [] => None
  end.
(** scanner.go:3000-3022 *)

Definition encoded (v : Z) : option (list ascii) :=
  if ((55296 <=? v) && (v <=? 57343) || (1114111 <? v))%Z then None
  else if (v <=? 127)%Z then Some [byteof v]
  else if (v <=? 2047)%Z then Some [byteof (192 + v / 64); byteof (128 + v mod 64)]
  else if (v <=? 65535)%Z then Some [byteof (224 + v / 4096); byteof (128 + (v / 64) mod 64); byteof (128 + v mod 64)]
  else Some [byteof (240 + v / 262144); byteof (128 + (v / 4096) mod 64); byteof (128 + (v / 64) mod 64); byteof (128 + v mod 64)].
(** scanner.go:2921-3030, behind the backslash: the text and what follows; None is an error *)
Definition unescape (l : list ascii) : option (list ascii * list ascii) :=
  match l with
  | [] => None
  | e :: r =>
    match meaning e with
    | Some t => Some (t, r)
    | None => match codeLength e with
              | Some k => match hexCode k 0 r with
                          | Some (v, r) => match encoded v with Some t => Some (t, r) | None => None end
                          | None => None
                          end
              | None => None
              end
    end
  end.
(** scanner.go:3089-3110 and 3209-3222: blanks or folded line breaks between two words *)
Definition joined (lead : bool) (ws lb tb : list ascii) : list ascii :=
  if lead then
    match lb with
    | c :: _ => if Ascii.eqb c LF then match tb with [] => [" "%char] | _ => tb end else lb ++ tb
    | [] => lb ++ tb
    end
  else ws.
Definition afterR (w : list ascii) (x : read (list ascii * list ascii)) : read (list ascii * list ascii) :=
  match x with Got (s, r) => Got (w ++ s, r) | Bad => Bad | Crash => Crash end.
(** scanner.go:2856-3112: the nested loops are a machine with a mode: at the top of the outer
    loop, in the loop over words, in the loop over blanks.  The result: the text and what follows
    the closing quote.  [n] bounds the steps; each byte takes at most five of them. *)
Inductive mode := Top | Word | Blanks (lead : bool) (ws lb tb : list ascii).
Fixpoint scanFlow (n : nat) (single : bool) (m : mode) (col : nat) (l : list ascii) : read (list ascii * list ascii) :=
  match n with
  | O => Bad
  | S n =>
    match m with
    | Top =>
      if Nat.eqb col 0 && marker l then Bad
      else match l with
           | [] => Bad
           | c :: _ => if Ascii.eqb c "000" then Bad else scanFlow n single Word col l
           end
    | Word =>
      match l with
      | [] => Bad
      | c :: r =>
        if blankzAt l then scanFlow n single (Blanks false [] [] []) col l
        else if single then
          if Ascii.eqb c "'" then
            match r with
            | d :: r2 => if Ascii.eqb d "'" then afterR [c] (scanFlow n single Word (col + 2) r2) else Got ([], r)
            | [] => Got ([], r)
            end
          else match width c with O => Crash | w => afterR (firstn w l) (scanFlow n single Word (col + 1) (skipn w l)) end
        else
          if Ascii.eqb c quote2 then Got ([], r)
          else if Ascii.eqb c backslash then
            if breakAt r then
              match snd (lineBreak r) with
              | d :: q => if Ascii.eqb d quote2 then Got ([], q) else scanFlow n single (Blanks true [] [] []) 0 (d :: q)
              | [] => Bad
              end
            else match unescape r with
                 | Some (t, r) => afterR t (scanFlow n single Word (col + 2) r)
                 | None => Bad
                 end
          else match width c with O => Crash | w => afterR (firstn w l) (scanFlow n single Word (col + 1) (skipn w l)) end
      end
    | Blanks lead ws lb tb =>
      match l with
      | c :: r =>
        if isBlank c then scanFlow n single (Blanks lead (if lead then ws else ws ++ [c]) lb tb) (col + 1) r
        else if breakAt l then
          let (b, r) := lineBreak l in
          if lead then scanFlow n single (Blanks true ws lb (tb ++ b)) 0 r else scanFlow n single (Blanks true [] b tb) 0 r
        else afterR (joined lead ws lb tb) (scanFlow n single Top col l)
      | [] => Bad
      end
    end
  end.
(** scanner.go:2844-2855: behind the opening quote, in column [col] *)
Definition scanQuoted (single : bool) (col : nat) (l : list ascii) : read (list ascii * list ascii) :=
  scanFlow (6 * List.length l + 6) single Top col l.

(** scanner.go:3142-3330 with flow_level 0; [indent] = parser.indent + 1.  Blanks and line breaks
    at the end are dropped.  The result: the text and what follows it. *)
Inductive pmode := PTop | PWord | PBlanks.
Fixpoint scanP (n : nat) (indent : nat) (m : pmode) (lead : bool) (ws lb tb : list ascii) (col : nat) (l : list ascii) : read (list ascii * list ascii) :=
  match n with
  | O => Bad
  | S n =>
    match m with
    | PTop => if Nat.eqb col 0 && marker l then Got ([], l)
              else match l with c :: _ => if Ascii.eqb c "#" then Got ([], l) else scanP n indent PWord lead ws lb tb col l | [] => Got ([], l) end
    | PWord =>
      match l with
      | [] => Got ([], l)
      | c :: r =>
        if blankzAt l then
          if isBlank c || breakAt l then scanP n indent PBlanks lead ws lb tb col l else Got ([], l)
        else if Ascii.eqb c ":" && blankzAt r then Got ([], l)
        else match width c with
             | O => Crash
             | w => afterR ((if lead || negb (match ws with [] => true | _ => false end) then joined lead ws lb tb else []) ++ firstn w l)
                      (scanP n indent PWord false [] [] [] (col + 1) (skipn w l))
             end
      end
    | PBlanks =>
      match l with
      | c :: r =>
        if isBlank c then
          if lead && Nat.ltb col indent && Ascii.eqb c "009" then Bad
          else scanP n indent PBlanks lead (if lead then ws else ws ++ [c]) lb tb (col + 1) r
        else if breakAt l then
          let (b, r) := lineBreak l in
          if lead then scanP n indent PBlanks true ws lb (tb ++ b) 0 r else scanP n indent PBlanks true [] b tb 0 r
        else if Nat.ltb col indent then Got ([], l)
        else scanP n indent PTop lead ws lb tb col l
      | [] => Got ([], l)
      end
    end
  end.
Definition scanPlain (indent col : nat) (l : list ascii) : read (list ascii * list ascii) :=
  scanP (6 * List.length l + 6) indent PTop false [] [] [] col l.

(** ** whole scalars *)
(** emitter.go:218-233 and 827-835: the indentation inside a scalar (None: emitter.indent = -1) *)
Definition scalarIndent (parent : option nat) : nat := match parent with None => 2%nat | Some i => (i + 2)%nat end.
(** emitter.go:1096-1126, 1508-1528 (the quotes; they leave whitespace = indention = false); the
    blank in front is left out, [p] is the state behind it; [breaks]: not a simple key.  Literal
    texts are not modelled here. *)
Definition writeScalar (breaks : bool) (parent : option nat) (p : pen) (st : style) (l : list ascii) : outcome (list ascii) :=
  let q := mkPen (column p + 1) false false in
  match st with
  | Plain => writePlain breaks (scalarIndent parent) false p l
  | SingleQuoted => Done ("'"%char :: writeSingle breaks (scalarIndent parent) true false q l ++ ["'"%char])
  | DoubleQuoted => match writeDouble (List.length l) breaks (scalarIndent parent) true false q l with
                    | Done w => Done (quote2 :: w ++ [quote2])
                    | Panics => Panics
                    | Hangs => Hangs
                    end
  | Literal => Panics
  end.
(** scanner.go:719-917: what begins here, if it is a quoted or a plain scalar (flow_level 0);
    other tokens are not modelled: Bad *)
Definition plainStart (col : nat) (l : list ascii) : bool :=
  match l with
  | [] => false
  | c :: r =>
    negb (Nat.eqb col 0 && marker l) && negb (blankzAt l) &&
    (negb (existsb (Ascii.eqb c) ["-"; "?"; ":"; ","; "["; "]"; "{"; "}"; "#"; "&"; "*"; "!"; "|"; ">"; "'"; quote2; "%"; "@"; "`"]%char)
     || (existsb (Ascii.eqb c) ["-"; "?"; ":"]%char && negb (blankzAt r)))
  end.
Definition styled (st : style) (x : read (list ascii * list ascii)) : read (style * list ascii * list ascii) :=
  match x with Got (s, r) => Got (st, s, r) | Bad => Bad | Crash => Crash end.
Definition scanScalar (k col : nat) (l : list ascii) : read (style * list ascii * list ascii) :=
  match l with
  | [] => Bad
  | c :: r =>
    if Ascii.eqb c "'" then styled SingleQuoted (scanQuoted true (col + 1) r)
    else if Ascii.eqb c quote2 then styled DoubleQuoted (scanQuoted false (col + 1) r)
    else if plainStart col l then styled Plain (scanPlain k col l)
    else Bad
  end.
