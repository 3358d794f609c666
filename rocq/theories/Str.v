(** Strings: the functions of Go's packages strings, strconv and unicode/utf8
    used by dynaml, plus dynaml/split.go, join.go, trim.go, substr.go,
    base64.go.  A Go string is a sequence of bytes, i.e. a Coq [string].
    No proofs in this file. *)
From Coq Require Import DecimalString.
From Verif Require Import Core.

Definition chars (s : string) : list ascii := list_ascii_of_string s.
Definition ofchars (l : list ascii) : string := string_of_list_ascii l.
Definition schr (c : ascii) : string := String c EmptyString.
Definition bytev (c : ascii) : Z := Z.of_N (N_of_ascii c).
Definition byteof (z : Z) : ascii := ascii_of_N (Z.to_N z).
Definition nl : string := schr "010"%char.

(** strings.Join *)
Fixpoint joinS (sep : string) (l : list string) : string :=
  match l with
  | [] => ""
  | [x] => x
  | x :: r => (x +++ sep +++ joinS sep r)%string
  end.
(** concatenation of all elements *)
Definition concatS (l : list string) : string := joinS "" l.

(** UTF-8: unicode/utf8.DecodeRuneInString: width of the first rune, and whether
    the encoding is valid.  [skip = 0] on entry; the second byte has a
    restricted range for some first bytes (table acceptRanges of unicode/utf8). *)
Definition cont (lo hi : Z) (c : ascii) : bool := (lo <=? bytev c) && (bytev c <=? hi).
Definition rune_width (s : list ascii) : nat * bool :=
  match s with
  | [] => (O, false)
  | c :: r =>
      let b := bytev c in
      if b <? 128 then (1, true)%nat
      else
        let need (n : nat) (lo hi : Z) :=
          match n, r with
          | 2%nat, c1 :: _ => if cont lo hi c1 then (2, true)%nat else (1, false)%nat
          | 3%nat, c1 :: c2 :: _ => if cont lo hi c1 && cont 128 191 c2 then (3, true)%nat else (1, false)%nat
          | 4%nat, c1 :: c2 :: c3 :: _ =>
              if cont lo hi c1 && cont 128 191 c2 && cont 128 191 c3 then (4, true)%nat else (1, false)%nat
          | _, _ => (1, false)%nat
          end in
        if (194 <=? b) && (b <=? 223) then need 2%nat 128 191
        else if b =? 224 then need 3%nat 160 191
        else if b =? 237 then need 3%nat 128 159
        else if (225 <=? b) && (b <=? 239) then need 3%nat 128 191
        else if b =? 240 then need 4%nat 144 191
        else if (241 <=? b) && (b <=? 243) then need 4%nat 128 191
        else if b =? 244 then need 4%nat 128 143
        else (1, false)%nat
  end.

(** U+FFFD encoded *)
Definition runeError : string := ofchars ["239"; "191"; "189"]%char.

(** the runes of [for _, c := range str], each converted back by string(c);
    structural: [skip] counts the bytes still belonging to the current rune *)
Fixpoint runes_aux (s : list ascii) (skip : nat) : list string :=
  match s with
  | [] => []
  | c :: r =>
      match skip with
      | S k => runes_aux r k
      | O => let '(w, ok) := rune_width s in
             (if ok then ofchars (firstn w s) else runeError) :: runes_aux r (w - 1)
      end
  end.
Definition runes (s : string) : list string := runes_aux (chars s) 0.

(** utf8.ValidString *)
Fixpoint valid_aux (s : list ascii) (skip : nat) : bool :=
  match s with
  | [] => true
  | c :: r =>
      match skip with
      | S k => valid_aux r k
      | O => let '(w, ok) := rune_width s in ok && valid_aux r (w - 1)
      end
  end.
Definition validUTF8 (s : string) : bool := valid_aux (chars s) 0.

(** is [p] a prefix of the characters [s] *)
Fixpoint prefixL (p s : list ascii) : bool :=
  match p, s with
  | [], _ => true
  | a :: p', b :: s' => Ascii.eqb a b && prefixL p' s'
  | _ :: _, [] => false
  end.

(** strings.genSplit for a non-empty separator: [n] is the number of further
    cuts allowed ([None]: unlimited); [acc] the current piece reversed *)
Fixpoint split_aux (sep : list ascii) (s : list ascii) (skip : nat) (n : option nat) (acc : list ascii)
  : list string :=
  match s with
  | [] => [ofchars (rev acc)]
  | c :: r =>
      match skip with
      | S k => split_aux sep r k n acc
      | O =>
          match n with
          | Some O => [ofchars (rev acc ++ s)]
          | _ => if prefixL sep s
                 then ofchars (rev acc) :: split_aux sep r (length sep - 1) (option_map Nat.pred n) []
                 else split_aux sep r 0 n (c :: acc)
          end
      end
  end.

(** strings.explode(s, n): the runes, the last piece takes the rest *)
Definition explode (s : string) (n : Z) : list string :=
  let rs := runes s in
  if (n <? 0) || (Z.of_nat (length rs) <? n) then rs
  else match Z.to_nat n with
       | O => []
       | S k => firstn k rs ++ [concatS (skipn k rs)]
       end.

(** strings.SplitN(s, sep, n) (Go standard library): n < 0 unlimited, n = 0 nil *)
Definition splitN (s sep : string) (n : Z) : list string :=
  if n =? 0 then []
  else match sep with
       | EmptyString => explode s n
       | _ => split_aux (chars sep) (chars s) 0
                (if n <? 0 then None else Some (Nat.pred (Z.to_nat n))) []
       end.
Definition split (s sep : string) : list string := splitN s sep (-1).

(** dynaml/split.go:49-66: cut into pieces of at most [max] runes, at most n pieces *)
Fixpoint split_len_loop (rs : list string) (max : Z) (cur : string) (l : Z) (n : Z) : list string :=
  match rs with
  | [] => if 0 <? l then [cur] else []
  | c :: r =>
      if (max <=? l) && ((n <? 0) || (1 <? n))
      then cur :: split_len_loop r max c 1 (wrap64 (n - 1))
      else split_len_loop r max (cur +++ c)%string (l + 1) n
  end.
Definition split_len (s : string) (max n : Z) : list string := split_len_loop (runes s) max "" 0 n.

(** strings.Trim(s, cutset) on the rune level (for valid UTF-8) *)
Definition inset (cut : list string) (c : string) : bool := existsb (String.eqb c) cut.
Fixpoint dropset (cut : list string) (l : list string) : list string :=
  match l with
  | [] => []
  | c :: r => if inset cut c then dropset cut r else l
  end.
Definition trim (s cutset : string) : string :=
  concatS (rev (dropset (runes cutset) (rev (dropset (runes cutset) (runes s))))).

(** dynaml/substr.go:3-45 for decoded arguments; None = reported error *)
Definition substr (s : string) (start : Z) (stop : option Z) : option string :=
  let len := Z.of_nat (String.length s) in
  let start := if start <? 0 then wrap64 (len + start) else start in
  let stop := match stop with
              | None => len
              | Some e => if e <? 0 then wrap64 (len + e) else e
              end in
  if len <? stop then None
  else if start <? 0 then None
  else if stop <? start then None
  else Some (String.substring (Z.to_nat start) (Z.to_nat (stop - start)) s).

(** strconv.FormatInt(z, 10) *)
Definition itoa (z : Z) : string := NilZero.string_of_int (Z.to_int z).

Definition isDigit (c : ascii) : bool := (48 <=? bytev c) && (bytev c <=? 57).
(** the digits loop of strconv.ParseInt/ParseUint in base 10 (unbounded here,
    the range check follows in [parseInt]); at least one digit *)
Definition parseNat (s : string) : option Z :=
  match s with
  | EmptyString => None
  | _ => option_map Z.of_uint (NilEmpty.uint_of_string s)
  end.
(** strconv.ParseInt(s, 10, 64): optional sign, decimal digits, range error *)
Definition parseInt (s : string) : option Z :=
  let chk z := match z with Some v => if in64b v then Some v else None | None => None end in
  match s with
  | String "-" r => chk (option_map Z.opp (parseNat r))
  | String "+" r => chk (parseNat r)
  | _ => chk (parseNat s)
  end.

(** strconv.FormatBool *)
Definition btoa (b : bool) : string := if b then "true" else "false".
