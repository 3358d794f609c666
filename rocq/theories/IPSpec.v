(** Specification vocabulary for addresses and networks (properties C12-C17):
    an address is its number, a network its interval of numbers. *)
From Verif Require Import Core IP.

(** a well-formed address: all elements are bytes *)
Definition ip_ok (a : ip) : Prop := Forall (fun b => 0 <= b < 256) a.
(** the number denoted by an address (big endian) *)
Definition ipval (a : ip) : Z := fold_left (fun acc b => acc * 256 + b) a 0.
(** number of addresses of the address space of the given byte length *)
Definition space (len : nat) : Z := 256 ^ Z.of_nat len.

(** number of host bits of a network *)
Definition hostbits (c : cidr) : Z := 8 * Z.of_nat (c_len c) - Z.of_nat (c_ones c).
(** lowest and highest address number of a network: host bits all 0 / all 1 *)
Definition net_lo (c : cidr) : Z := ipval (c_addr c) / 2 ^ hostbits c * 2 ^ hostbits c.
Definition net_hi (c : cidr) : Z := net_lo c + (2 ^ hostbits c - 1).
(** what net.ParseCIDR guarantees *)
Definition cidr_ok (c : cidr) : Prop := ip_ok (c_addr c) /\ (c_ones c <= 8 * c_len c)%nat.

(** specification: the addresses of a range, as numbers, in order *)
Definition range_vals (r : iprange) : list Z :=
  match r with
  | RSpan s e => map (fun k => ipval s + k) (zseq (ipval e - ipval s + 1))
  | ROne s => [ipval s]
  | RCidr c => map (fun k => net_lo c + k) (zseq (2 ^ hostbits c))
  end.
Definition all_vals (rs : list iprange) : list Z := concat (map range_vals rs).
(** ranges as map_ip_ranges builds them from IPv4 networks, addresses and spans *)
Definition range_ok (r : iprange) : Prop :=
  match r with
  | RSpan s e => ip_ok s /\ ip_ok e /\ length s = length e /\ ipval s <= ipval e
                 /\ ipval e - ipval s < max64
  | ROne s => ip_ok s
  | RCidr c => cidr_ok c /\ c_len c = 4%nat
  end.

(** number of addresses in all ranges *)
Definition total (rs : list iprange) : Z := Z.of_nat (length (all_vals rs)).

(** the specification of a selection: positions of a list *)
Definition selects (all : list Z) (idx : list Z) (r : list Z) : Prop :=
  Forall2 (fun i v => 0 <= i /\ nth_error all (Z.to_nat i) = Some v) idx r.

