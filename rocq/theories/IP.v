(** IP address and CIDR arithmetic.
    Models dynaml/addition.go:67-80, dynaml/ip.go, dynaml/division.go:37-64,
    dynaml/multiplication.go:34-44, dynaml/ipset.go, dynaml/static_ips.go:63-99,204-226.
    An address (net.IP) is the list of its bytes, most significant first
    (length 4 or 16).  No proofs in this file. *)
From Verif Require Import Core.

Definition ip := list Z.

(** byte(x) *)
Definition byte_of (x : Z) : Z := x mod 256.

(** dynaml/addition.go:67-80 IPAdd: the loop runs from the last byte to the
    first; the argument list is therefore the reversed address. *)
Fixpoint ip_add_rev (l : list Z) (offset : Z) : list Z :=
  match l with
  | [] => []
  | b :: r =>
      let tmp := wrap64 (offset + b) in
      let b' := byte_of tmp in
      let tmp' := if tmp <? 0 then wrap64 (tmp - 256) else tmp in
      let offset' := Z.quot tmp' 256 in
      if offset' =? 0 then b' :: r else b' :: ip_add_rev r offset'
  end.
Definition ip_add (a : ip) (offset : Z) : ip := rev (ip_add_rev (rev a) offset).

(** dynaml/ip.go:116-124 DiffIP; indexing b[i] panics if b is shorter: None *)
Fixpoint diff_ip_loop (a b : ip) (d : Z) : option Z :=
  match a, b with
  | [], _ => Some d
  | x :: a', y :: b' => diff_ip_loop a' b' (wrap64 (wrap64 (d * 256) + (x - y)))
  | _ :: _, [] => None
  end.
Definition diff_ip (a b : ip) : option Z := diff_ip_loop a b 0.

(** net.CIDRMask(ones, 8*len) of the Go standard library *)
Fixpoint mask_bytes (ones : nat) (len : nat) : list Z :=
  match len with
  | O => []
  | S k => if Nat.leb 8 ones then 255 :: mask_bytes (ones - 8) k
           else (255 - 255 / 2 ^ Z.of_nat ones) :: mask_bytes 0 k
  end.

(** A parsed CIDR: the network address family is given by [c_len] (4 or 16
    bytes), the address and the number of mask bits.  net.ParseCIDR guarantees
    c_ones <= 8*c_len. [c_addr] is the address as given, in the length of the
    mask (the IPv4-in-IPv6 form and the 4 byte form have the same String()). *)
Record cidr := mkCidr { c_addr : ip; c_ones : nat }.
Definition c_len (c : cidr) : nat := length (c_addr c).
Definition c_mask (c : cidr) : list Z := mask_bytes (c_ones c) (c_len c).

(** net.IP.Mask *)
Definition ip_mask (a : ip) (m : list Z) : ip := map (fun p => Z.land (fst p) (snd p)) (combine a m).

(** dynaml/ip.go:68-72 func_minIP *)
Definition min_ip (c : cidr) : ip := ip_mask (c_addr c) (c_mask c).
(** dynaml/ip.go:101-114 MaxIP; len(ip) = len(mask) here *)
Definition max_ip (c : cidr) : ip :=
  map (fun p => Z.lor (fst p) (Z.lxor (snd p) 255)) (combine (min_ip c) (c_mask c)).

(** int64(1 << (32 - uint32(ones))): ip.go:83, multiplication.go:38, ipset.go:102.
    The subtraction is in uint32, a shift by 64 or more gives 0. *)
Definition size32 (ones : nat) : Z :=
  let s := (32 - Z.of_nat ones) mod 4294967296 in
  if s <? 64 then wrap64 (2 ^ s) else 0.
(** dynaml/ip.go:80-85 *)
Definition num_ip (c : cidr) : Z := size32 (c_ones c).

(** net.IPNet.Contains as used by dynaml/ip.go:65, addition.go:47 *)
Definition cidr_contains (c : cidr) (x : ip) : bool :=
  Nat.eqb (length x) (c_len c) &&
  forallb (fun p => Z.eqb (Z.land (fst (fst p)) (snd p)) (Z.land (snd (fst p)) (snd p)))
          (combine (combine (min_ip c) x) (c_mask c)).

(** dynaml/division.go:50-59: the rounding loop; structural on the divisor *)
Fixpoint div_loop (b : positive) (ones : Z) (round : bool) : Z * bool :=
  match b with
  | xH => (ones, round)
  | xI p => div_loop p (ones + 1) true
  | xO p => div_loop p (ones + 1) round
  end.
(** dynaml/division.go:30-64: result is the CIDR (masked address, new prefix) *)
Definition cidr_div (c : cidr) (b : Z) : option cidr :=
  match b with
  | Zpos p =>
      let '(ones, round) := div_loop p (Z.of_nat (c_ones c)) false in
      let ones := if round : bool then ones + 1 else ones in
      if 32 <? ones then None
      else Some (mkCidr (min_ip c) (Z.to_nat ones))
  | _ => None  (* bint < 1 *)
  end.

(** dynaml/multiplication.go:34-44 *)
Definition cidr_mul (c : cidr) (b : Z) : cidr :=
  mkCidr (ip_add (min_ip c) (wrap64 (size32 (c_ones c) * b))) (c_ones c).

(** dynaml/addition.go:40-52 for a CIDR operand: error if the result leaves the network *)
Definition cidr_add (c : cidr) (b : Z) : option cidr :=
  let a := ip_add (c_addr c) b in
  if cidr_contains c a then Some (mkCidr a (c_ones c)) else None.
(** dynaml/subtraction.go:42-52 *)
Definition cidr_sub (c : cidr) (b : Z) : option cidr := cidr_add c (wrap64 (- b)).

(* ------------------------------------------------------------------ *)
(** * ipset: dynaml/ipset.go *)

(** dynaml/ipset.go:17-25; the lazily computed size field of iprange is not
    state that can be observed, GetSize is a function *)
Inductive iprange :=
| RSpan (start stop : ip)      (* iprange with size 0: computed on demand *)
| ROne (start : ip)            (* iprange with size 1 *)
| RCidr (c : cidr).

(** dynaml/ipset.go:83-89, 100-103 *)
Definition range_size (r : iprange) : Z :=
  match r with
  | RSpan s e => match diff_ip e s with Some d => wrap64 (d + 1) | None => 0 end
  | ROne _ => 1
  | RCidr c => size32 (c_ones c)
  end.
(** dynaml/ipset.go:91-98, 105-110 *)
Definition range_ip (r : iprange) (i : Z) : option ip :=
  if (i <? 0) || (range_size r <=? i) then None
  else match r with
       | RSpan s _ => Some (ip_add s i)
       | ROne s => Some (ip_add s i)
       | RCidr c => Some (ip_add (min_ip c) i)
       end.

(** dynaml/ipset.go:186-199: search the range holding [index]; [None]: no range
    found (error); [Some None]: GetIP returned nil, the entry becomes the text
    "<nil>" *)
Fixpoint ipset_find (rs : list iprange) (offset index : Z) : option (option ip) :=
  match rs with
  | [] => None
  | r :: rest =>
      if index <? wrap64 (offset + range_size r)
      then Some (range_ip r (wrap64 (index - offset)))
      else ipset_find rest (wrap64 (offset + range_size r)) index
  end.

Inductive ipres (A : Type) := IPOk (l : list A) | IPErr | IPPanic.
Arguments IPOk {A}. Arguments IPErr {A}. Arguments IPPanic {A}.

Fixpoint ipset_all (rs : list iprange) (idx : list Z) : ipres (option ip) :=
  match idx with
  | [] => IPOk []
  | i :: r =>
      match ipset_find rs 0 i with
      | None => IPErr
      | Some a => match ipset_all rs r with
                  | IPOk l => IPOk (a :: l)
                  | e => e
                  end
      end
  end.

(** 0,1,...,n-1 *)
Definition zseq (n : Z) : list Z := map Z.of_nat (seq 0 (Z.to_nat n)).

(** dynaml/ipset.go:167-205 after the arguments have been decoded: [idx = None]
    if there are only two arguments. make([]Node, num) panics for num < 0. *)
Definition ipset (rs : list iprange) (num : Z) (idx : option (list Z)) : ipres (option ip) :=
  match idx with
  | Some l =>
      if Z.of_nat (length l) <? num then IPErr
      else if num <? 0 then IPPanic
      else ipset_all rs (firstn (Z.to_nat num) l)
  | None => if num <? 0 then IPPanic else ipset_all rs (zseq num)
  end.

(** dynaml/static_ips.go:219-226 inc, on the reversed address *)
Fixpoint inc_rev (l : list Z) : list Z :=
  match l with
  | [] => []
  | b :: r => let b' := byte_of (b + 1) in if 0 <? b' then b' :: r else b' :: inc_rev r
  end.
Definition ip_inc (a : ip) : ip := rev (inc_rev (rev a)).

(** dynaml/static_ips.go:204-217 ipRange; the loop has no bound, hence fuel;
    None = the fuel did not suffice *)
Fixpoint ip_range (fuel : nat) (a b : ip) : option (list ip) :=
  match fuel with
  | O => None
  | S f => if list_eq_dec Z.eq_dec a b then Some [a]
           else match ip_range f (ip_inc a) b with
                | Some l => Some (a :: l)
                | None => None
                end
  end.

(** dynaml/static_ips.go:85-98: selection of the indices from the pool;
    a negative index panics (ipPool[i]) *)
Fixpoint static_select (pool : list ip) (idx : list Z) : ipres ip :=
  match idx with
  | [] => IPOk []
  | i :: r =>
      if Z.of_nat (length pool) <=? i then IPErr
      else if i <? 0 then IPPanic
      else match nth_error pool (Z.to_nat i) with
           | None => IPPanic
           | Some a => match static_select pool r with
                       | IPOk l => IPOk (a :: l)
                       | e => e
                       end
           end
  end.
Definition static_ips (pool : list ip) (idx : list Z) (instances : Z) : ipres ip :=
  match idx with
  | [] => IPErr
  | _ => match static_select pool idx with
         | IPOk l => if Z.of_nat (length l) <? instances then IPErr
                     else if instances <? 0 then IPPanic
                     else IPOk (firstn (Z.to_nat instances) l)
         | e => e
         end
  end.

(* ------------------------------------------------------------------ *)
(** * Textual forms *)

(** The functions of Go's package net used by dynaml: net.ParseIP (16 bytes, the
    IPv4-mapped form for IPv4 texts), net.ParseCIDR (the address in 16 byte form,
    and the network as masked address plus prefix length with the byte length of
    the family), IP.String, IPNet.String.  They are parameters of the model. *)
Record netx := mkNet {
  n_parseIP : string -> option ip;
  n_parseCIDR : string -> option (ip * cidr);
  n_ipString : ip -> string;
  n_cidrString : ip -> nat -> nat -> string   (* address, ones, mask length in bytes *) }.

(** net.IP.To4 and the length adaption of IPNet.Contains / networkNumberAndMask *)
Definition to4 (a : ip) : ip :=
  match a with
  | [0;0;0;0;0;0;0;0;0;0;255;255;w;x;y;z] => [w;x;y;z]
  | _ => a
  end.
(** IPv4 in its 16 byte form (net.IPv4) *)
Definition to16 (a : ip) : ip :=
  match a with
  | [w;x;y;z] => [0;0;0;0;0;0;0;0;0;0;255;255;w;x;y;z]
  | _ => a
  end.
(** net.IPNet.Contains *)
Definition net_contains (c : cidr) (x : ip) : bool := cidr_contains c (to4 x).
