(** The arithmetic operators on resolved operand values.
    Models dynaml/addition.go:32-63,85-103, subtraction.go:32-75,
    multiplication.go:31-53, division.go:31-77, modulo.go:29-33, ip.go and
    ipset.go:27-81,112-205 at the level of values and texts.  [None] is a
    reported error (ok = false).  No proofs in this file. *)
From Coq Require Import Floats.SpecFloat.
From Verif Require Import Core Str IP.

(** float64: IEEE binary64 as in Coq's SpecFloat *)
Definition prec64 : Z := 53.
Definition emax64 : Z := 1024.
Definition fadd := SFadd prec64 emax64.
Definition fsub := SFsub prec64 emax64.
Definition fmul := SFmul prec64 emax64.
Definition fdiv := SFdiv prec64 emax64.
(** float64(i) *)
Definition f_of_int (z : Z) : spec_float := binary_normalize prec64 emax64 z 0 false.
(** f == 0.0 *)
Definition f_is_zero (f : spec_float) : bool := match f with S754_zero _ => true | _ => false end.

(** dynaml/addition.go:85-103 NumberOperands *)
Inductive numops := NInts (a b : Z) | NFloats (a b : spec_float) | NNone.
Definition numberOperands (a b : value) : numops :=
  match a, b with
  | VInt x, VInt y => NInts x y
  | VFloat x, VFloat y => NFloats x y
  | VFloat x, VInt y => NFloats x (f_of_int y)
  | VInt x, VFloat y => NFloats (f_of_int x) y
  | _, _ => NNone
  end.

Section Net.
Variable N : netx.

(** dynaml/addition.go:32-52, subtraction.go:32-52 for a text operand: parsed as
    address or as CIDR *)
Definition operandIP (s : string) : option (ip * option cidr) :=
  match n_parseIP N s with
  | Some i => Some (i, None)
  | None => match n_parseCIDR N s with
            | Some (i, c) => Some (i, Some c)
            | None => None
            end
  end.

(** dynaml/addition.go:44-52 *)
Definition ip_offset (i : ip) (c : option cidr) (d : Z) : option value :=
  let r := ip_add i d in
  match c with
  | Some c => if net_contains c r then Some (VStr (n_cidrString N r (c_ones c) (c_len c))) else None
  | None => Some (VStr (n_ipString N r))
  end.

(** dynaml/addition.go:32-62 *)
Definition op_add (a b : value) : option value :=
  match a with
  | VStr s =>
      match operandIP s with
      | None => None
      | Some (i, c) => match b with VInt d => ip_offset i c d | _ => None end
      end
  | _ => match numberOperands a b with
         | NInts x y => Some (VInt (wrap64 (x + y)))
         | NFloats x y => Some (VFloat (fadd x y))
         | NNone => None
         end
  end.

(** dynaml/subtraction.go:32-77 *)
Definition op_sub (a b : value) : option value :=
  match a with
  | VStr s =>
      match operandIP s with
      | None => None
      | Some (i, c) =>
          match b with
          | VInt d => ip_offset i c (wrap64 (- d))
          | VStr t =>
              match operandIP t with
              | None => None
              | Some (j, _) =>
                  if Nat.eqb (length i) (length j)
                  then option_map VInt (diff_ip i j)
                  else None
              end
          | _ => None
          end
      end
  | _ => match numberOperands a b with
         | NInts x y => Some (VInt (wrap64 (x - y)))
         | NFloats x y => Some (VFloat (fsub x y))
         | NNone => None
         end
  end.

(** dynaml/multiplication.go:31-54 *)
Definition op_mul (a b : value) : option value :=
  match a with
  | VStr s =>
      match n_parseCIDR N s with
      | None => None
      | Some (_, c) => match b with
                       | VInt d => let r := cidr_mul c d in
                                   Some (VStr (n_cidrString N (c_addr r) (c_ones r) (c_len c)))
                       | _ => None
                       end
      end
  | _ => match numberOperands a b with
         | NInts x y => Some (VInt (wrap64 (x * y)))
         | NFloats x y => Some (VFloat (fmul x y))
         | NNone => None
         end
  end.

(** dynaml/division.go:31-78. Go's integer division truncates; MinInt64 / -1 wraps. *)
Definition op_div (a b : value) : option value :=
  match a with
  | VStr s =>
      match n_parseCIDR N s with
      | None => None
      | Some (_, c) => match b with
                       | VInt d => match cidr_div c d with
                                   | Some r => Some (VStr (n_cidrString N (c_addr r) (c_ones r) (c_len c)))
                                   | None => None
                                   end
                       | _ => None
                       end
      end
  | _ => match numberOperands a b with
         | NInts x y => if y =? 0 then None else Some (VInt (wrap64 (Z.quot x y)))
         | NFloats x y => if f_is_zero y then None else Some (VFloat (fdiv x y))
         | NNone => None
         end
  end.

(** dynaml/modulo.go:12-33 with ResolveIntegerExpressionOrPushEvaluation (expression.go):
    both operands must be integers *)
Definition op_mod (a b : value) : option value :=
  match a, b with
  | VInt x, VInt y => if y =? 0 then None else Some (VInt (wrap64 (Z.rem x y)))
  | _, _ => None
  end.

(** dynaml/ip.go:9-31 func_ip with the argument list given as values *)
Definition func_ip (op : ip -> cidr -> value) (args : list value) : option value :=
  match args with
  | [VStr s] => match n_parseCIDR N s with
                | Some (i, c) => Some (op i c)
                | None => None
                end
  | _ => None
  end.
(** dynaml/ip.go:68-72: ip.Mask(cidr.Mask), the same bytes as cidr.IP *)
Definition func_minIP := func_ip (fun _ c => VStr (n_ipString N (min_ip c))).
(** dynaml/ip.go:74-78 *)
Definition func_maxIP := func_ip (fun _ c => VStr (n_ipString N (max_ip c))).
(** dynaml/ip.go:80-85 *)
Definition func_numIP := func_ip (fun _ c => VInt (num_ip c)).
(** dynaml/ip.go:33-66 *)
Definition func_containsIP (args : list value) : option value :=
  match args with
  | [VStr s; VStr t] =>
      match n_parseCIDR N s, n_parseIP N t with
      | Some (_, c), Some i => Some (VBool (net_contains c i))
      | _, _ => None
      end
  | _ => None
  end.

(** bytes.Compare(start, end) > 0 for equal lengths *)
Fixpoint bytes_gt (a b : ip) : bool :=
  match a, b with
  | x :: a', y :: b' => if x =? y then bytes_gt a' b' else y <? x
  | _, _ => false
  end.

(** dynaml/ipset.go:27-81 map_ip_ranges, one range text; segments beyond the
    second are ignored *)
Definition parse_range (r : string) : option iprange :=
  match split r "-" with
  | [] => None
  | [x] => match n_parseCIDR N r with
           | Some (_, c) => Some (RCidr c)
           | None => match n_parseIP N (trim x " ") with
                     | Some i => Some (ROne i)
                     | None => None
                     end
           end
  | x :: y :: _ =>
      match n_parseIP N (trim x " "), n_parseIP N (trim y " ") with
      | Some i, Some j => if Nat.eqb (length i) (length j)
                          then if bytes_gt i j then None else Some (RSpan i j)
                          else None
      | _, _ => None
      end
  end.
Fixpoint parse_ranges (l : list string) : option (list iprange) :=
  match l with
  | [] => Some []
  | r :: rest => match parse_range r, parse_ranges rest with
                 | Some x, Some y => Some (x :: y)
                 | _, _ => None
                 end
  end.

(** dynaml/static_ips.go:38-63 getIndices; nil elements and nil values are skipped *)
Fixpoint get_indices (n : node) : option (list Z) :=
  match val n with
  | VNil => Some []
  | VInt z => if z <? 0 then None else Some [z]
  | VList l =>
      (fix go (l : list node) : option (list Z) :=
         match l with
         | [] => Some []
         | x :: r => match get_indices x, go r with
                     | Some a, Some b => Some (a ++ b)
                     | _, _ => None
                     end
         end) l
  | _ => None
  end.

(** dynaml/ipset.go:145-165: the index arguments *)
Fixpoint ipset_indices (args : list value) : option (list Z) :=
  match args with
  | [] => Some []
  | VInt z :: r => if z <? 0 then None else option_map (cons z) (ipset_indices r)
  | VList l :: r => match get_indices (newNode (VList l) ""), ipset_indices r with
                    | Some a, Some b => Some (a ++ b)
                    | _, _ => None
                    end
  | _ :: _ => None
  end.

(** all elements are strings: dynaml/ipset.go:129-140 *)
Fixpoint string_list (l : list node) : option (list string) :=
  match l with
  | [] => Some []
  | n :: r => match val n, string_list r with
              | VStr s, Some t => Some (s :: t)
              | _, _ => None
              end
  end.

(** dynaml/ipset.go:112-205 func_ipset *)
Definition func_ipset (args : list value) : ipres (option ip) :=
  match args with
  | rng :: n :: rest =>
      let ranges := match rng with
                    | VStr s => parse_ranges [s]
                    | VList l => match string_list l with
                                 | Some ls => parse_ranges ls
                                 | None => None
                                 end
                    | _ => None
                    end in
      match ranges with
      | None => IPErr
      | Some rs =>
          match ipset_indices rest with
          | None => IPErr
          | Some idx => match n with
                        | VInt num => ipset rs num (match rest with [] => None | _ => Some idx end)
                        | _ => IPErr
                        end
          end
      end
  | _ => IPErr
  end.

End Net.

(* ------------------------------------------------------------------ *)
(** * IPv4 texts
    The part of net.ParseIP, net.ParseCIDR, IP.String and IPNet.String for IPv4,
    used to instantiate [netx] in examples (IPv6 texts are not accepted by it). *)
Definition octet (s : string) : option Z :=
  match s with
  | String "0" (String _ _) => None
  | _ => if Nat.ltb 3 (String.length s) then None
         else match parseNat s with
              | Some v => if v <? 256 then Some v else None
              | None => None
              end
  end.
Definition parse4 (s : string) : option ip :=
  match map octet (split s ".") with
  | [Some a; Some b; Some c; Some d] => Some [a; b; c; d]
  | _ => None
  end.
Definition print4 (a : ip) : string := joinS "." (map itoa (to4 a)).
Definition net4 : netx :=
  mkNet (fun s => option_map to16 (parse4 s))
        (fun s => match split s "/" with
                  | [x; y] => match parse4 x, parseNat y with
                              | Some i, Some n =>
                                  if n <=? 32
                                  then Some (to16 i, mkCidr (min_ip (mkCidr i (Z.to_nat n))) (Z.to_nat n))
                                  else None
                              | _, _ => None
                              end
                  | _ => None
                  end)
        print4
        (fun i n l => (print4 i +++ "/" +++ itoa (Z.of_nat n))%string).
