(** Properties C11-C17: integer, address and network arithmetic.
    [N] is any implementation of the text conversions of Go's package net. *)
From Coq Require Import Lia.
From Verif Require Import Core CoreFacts Str IP IPSpec IPFacts IPFacts2 Arith ArithFacts.

(** * C11 *)
(** +, -, * : the result is the unique signed 64-bit number congruent to the
    mathematical result modulo 2^64 *)
Theorem C11_ring : forall N a b,
  exists p m t,
    op_add N (VInt a) (VInt b) = Some (VInt p) /\
    op_sub N (VInt a) (VInt b) = Some (VInt m) /\
    op_mul N (VInt a) (VInt b) = Some (VInt t) /\
    in64 p /\ in64 m /\ in64 t /\
    (p - (a + b)) mod 2 ^ 64 = 0 /\ (m - (a - b)) mod 2 ^ 64 = 0 /\ (t - a * b) mod 2 ^ 64 = 0.
Proof.
  intros N a b. exists (wrap64 (a + b)), (wrap64 (a - b)), (wrap64 (a * b)).
  repeat split; auto; try (apply wrap64_range); apply wrap_cong.
Qed.
Print Assumptions C11_ring.

(** no overflow, no surprise *)
Theorem C11_exact : forall N a b,
  (in64 (a + b) -> op_add N (VInt a) (VInt b) = Some (VInt (a + b))) /\
  (in64 (a - b) -> op_sub N (VInt a) (VInt b) = Some (VInt (a - b))) /\
  (in64 (a * b) -> op_mul N (VInt a) (VInt b) = Some (VInt (a * b))).
Proof.
  intros N a b. cbn. repeat split; intro H; rewrite wrap64_id by exact H; reflexivity.
Qed.
Print Assumptions C11_exact.

(** division and modulo: error for 0, truncation toward zero, remainder with the
    sign of the dividend, Euclidean identity *)
Theorem C11_div_mod : forall N a b, in64 a -> in64 b ->
  (b = 0 -> op_div N (VInt a) (VInt b) = None /\ op_mod (VInt a) (VInt b) = None) /\
  (b <> 0 -> exists q r,
     op_div N (VInt a) (VInt b) = Some (VInt q) /\ op_mod (VInt a) (VInt b) = Some (VInt r) /\
     in64 q /\ in64 r /\ Z.abs r < Z.abs b /\ 0 <= r * a /\
     ((a, b) <> (min64, -1) -> a = q * b + r) /\ (a - (q * b + r)) mod 2 ^ 64 = 0).
Proof.
  intros N a b Ha Hb. split.
  - intros ->. split; reflexivity.
  - intro Hb0. exists (wrap64 (Z.quot a b)), (Z.rem a b).
    cbn. destruct (Z.eqb_spec b 0); [contradiction|].
    rewrite (wrap64_id (Z.rem a b)) by (apply rem_in64; exact Ha).
    split; [reflexivity|]. split; [reflexivity|]. split; [apply wrap64_range|].
    split; [apply rem_in64; exact Ha|].
    split; [apply Z.rem_bound_abs; exact Hb0|].
    split; [apply Z.rem_sign_mul; exact Hb0|].
    assert (Hx : (a, b) <> (min64, -1) -> a = wrap64 (Z.quot a b) * b + Z.rem a b).
    { intro Hn. rewrite wrap64_id by (apply quot_in64; assumption).
      rewrite Z.mul_comm. apply Z.quot_rem. exact Hb0. }
    split; [exact Hx|].
    destruct (Z.eq_dec a min64) as [->|H1]; [destruct (Z.eq_dec b (-1)) as [->|H2]; [reflexivity|]|];
      rewrite <- Hx by congruence; rewrite Z.sub_diag; reflexivity.
Qed.
Print Assumptions C11_div_mod.
Example C11_wraps : op_add net4 (VInt max64) (VInt 1) = Some (VInt min64)
  /\ op_div net4 (VInt (-7)) (VInt 2) = Some (VInt (-3)) /\ op_mod (VInt (-7)) (VInt 2) = Some (VInt (-1)).
Proof. repeat split; reflexivity. Qed.

(** * C12 *)
(** adding a non-negative number (up to the 255 largest ones) to any address *)
Theorem C12_add : forall N s i n,
  n_parseIP N s = Some i -> ip_ok i -> 0 <= n <= max64 - 255 ->
  exists j, op_add N (VStr s) (VInt n) = Some (VStr (n_ipString N j)) /\
            ip_ok j /\ length j = length i /\ ipval j = (ipval i + n) mod space (length i).
Proof.
  intros N s i n Hp Hi Hn. exists (ip_add i n). cbn. unfold operandIP. rewrite Hp.
  split; [reflexivity|]. split; [apply ip_add_ok; exact Hi|]. split; [apply ip_add_length|].
  apply ip_add_nonneg; assumption.
Qed.
Print Assumptions C12_add.

(** subtracting up to 255 *)
Theorem C12_sub_small : forall N s i n,
  n_parseIP N s = Some i -> ip_ok i -> 0 <= n <= 255 ->
  exists j, op_sub N (VStr s) (VInt n) = Some (VStr (n_ipString N j)) /\
            ip_ok j /\ length j = length i /\ ipval j = (ipval i - n) mod space (length i) /\
            ip_add j n = i.
Proof.
  intros N s i n Hp Hi Hn. exists (ip_add i (- n)). cbn. unfold operandIP. rewrite Hp.
  rewrite wrap64_id by (unfold in64, min64, max64; lia).
  split; [reflexivity|]. split; [apply ip_add_ok; exact Hi|]. split; [apply ip_add_length|].
  assert (E : ipval (ip_add i (- n)) = (ipval i - n) mod space (length i))
    by (apply ip_add_small_neg; [exact Hi|lia]).
  split; [exact E|]. apply ip_add_back; [exact Hi|unfold max64; lia|exact E].
Qed.
Print Assumptions C12_sub_small.

(** subtraction of an arbitrary number is correct exactly if at no byte position
    the partial difference is negative with that byte equal to zero *)
Theorem C12_sub_exact : forall N s i n,
  n_parseIP N s = Some i -> ip_ok i -> 0 <= n <= max64 - 512 ->
  exists j, op_sub N (VStr s) (VInt n) = Some (VStr (n_ipString N j)) /\
   (ipval j = (ipval i - n) mod space (length i) <->
    forall k, (1 <= k < length i)%nat ->
      ~ (ipval i mod space k - n < 0 /\ ((ipval i mod space k - n) / space (k - 1)) mod 256 = 0)).
Proof.
  intros N s i n Hp Hi Hn. exists (ip_add i (- n)). cbn. unfold operandIP. rewrite Hp.
  rewrite wrap64_id by (unfold in64, min64, max64 in *; lia). split; [reflexivity|].
  apply (ip_add_exact i (- n)); [exact Hi|unfold min64, max64 in *; lia].
Qed.
Print Assumptions C12_sub_exact.

(** the full claim fails: 10.0.1.0 - 256 gives 9.255.255.0, so (ip + n) - n is not ip
    for 10.0.0.0 and 256;
the specification fails at the level of addresses (the text is a function of the address) *)
Theorem C12_refuted :
  ~ (forall i n, ip_ok i -> 0 <= n <= max64 ->
       ipval (ip_add i (- n)) = (ipval i - n) mod space (length i)) /\
  op_sub net4 (VStr "10.0.1.0") (VInt 256) = Some (VStr "9.255.255.0") /\
  op_add net4 (VStr "10.0.0.0") (VInt 256) = Some (VStr "10.0.1.0").
Proof.
  split; [|split; reflexivity]. intro H.
  specialize (H [10;0;1;0] 256 ltac:(repeat constructor; lia) ltac:(unfold max64; lia)).
  vm_compute in H. discriminate H.
Qed.
Print Assumptions C12_refuted.
Example C12_ex : op_add net4 (VStr "10.0.0.250") (VInt 10) = Some (VStr "10.0.1.4")
  /\ op_sub net4 (VStr "10.0.1.4") (VInt 10) = Some (VStr "10.0.0.250")
  /\ n_parseIP net4 "10.0.1.4" = Some (to16 [10;0;1;4]) /\ ip_ok (to16 [10;0;1;4]).
Proof. repeat split; repeat constructor; lia. Qed.

(** * C13 *)
Theorem C13_diff : forall N s t i j,
  operandIP N s = Some (i, None) -> operandIP N t = Some (j, None) -> length i = length j ->
  op_sub N (VStr s) (VStr t) = Some (VInt (wrap64 (ipval i - ipval j))).
Proof.
  intros N s t i j Hs Ht Hl. cbn. rewrite Hs, Ht. rewrite (proj2 (Nat.eqb_eq _ _) Hl).
  rewrite (diff_ip_spec i j Hl). reflexivity.
Qed.
Print Assumptions C13_diff.

(** the distance leads back to the first address, if it does not exceed the int64 range *)
Theorem C13_back : forall N s t i j,
  operandIP N s = Some (i, None) -> operandIP N t = Some (j, None) -> length i = length j ->
  ip_ok i -> ip_ok j -> ipval j <= ipval i <= ipval j + (max64 - 255) ->
  exists d, op_sub N (VStr s) (VStr t) = Some (VInt d) /\ d = ipval i - ipval j /\
            op_add N (VStr t) (VInt d) = Some (VStr (n_ipString N i)).
Proof.
  intros N s t i j Hs Ht Hl Hi Hj Hd. exists (ipval i - ipval j).
  rewrite (C13_diff N s t i j Hs Ht Hl), wrap64_id by (unfold in64, min64, max64 in *; lia).
  split; [reflexivity|]. split; [reflexivity|].
  cbn. rewrite Ht. unfold ip_offset. do 3 f_equal.
  apply ipval_inj; [rewrite ip_add_length; congruence|apply ip_add_ok; exact Hj|exact Hi|].
  rewrite ip_add_nonneg by (auto; lia). replace (ipval j + (ipval i - ipval j)) with (ipval i) by lia.
  apply Z.mod_small. rewrite <- Hl. apply ipval_range, Hi.
Qed.
Print Assumptions C13_back.

(** IPv4 (in the 16 byte form used by the code) is always in that range *)
Theorem C13_v4 : forall N s t a b,
  operandIP N s = Some (to16 a, None) -> operandIP N t = Some (to16 b, None) ->
  length a = 4%nat -> length b = 4%nat -> ip_ok a -> ip_ok b ->
  op_sub N (VStr s) (VStr t) = Some (VInt (ipval a - ipval b)).
Proof.
  intros N s t a b Hs Ht La Lb Ha Hb.
  destruct a as [|a1 [|a2 [|a3 [|a4 [|]]]]]; try discriminate.
  destruct b as [|b1 [|b2 [|b3 [|b4 [|]]]]]; try discriminate.
  rewrite (C13_diff N s t _ _ Hs Ht eq_refl). do 2 f_equal.
  pose proof (ipval_range _ Ha) as Ra. pose proof (ipval_range _ Hb) as Rb.
  unfold ipval, to16 in *. cbn [fold_left] in *. change (space (length [a1; a2; a3; a4])) with 4294967296 in Ra.
  change (space (length [b1; b2; b3; b4])) with 4294967296 in Rb.
  rewrite wrap64_id by (unfold in64, min64, max64; lia). lia.
Qed.
Print Assumptions C13_v4.
Example C13_ex : op_sub net4 (VStr "10.0.1.4") (VStr "10.0.0.250") = Some (VInt 10)
  /\ operandIP net4 "10.0.1.4" = Some (to16 [10;0;1;4], None).
Proof. split; reflexivity. Qed.

(** * C14 *)
Theorem C14_bounds : forall N s i c,
  n_parseCIDR N s = Some (i, c) -> cidr_ok c ->
  exists lo hi,
    func_minIP N [VStr s] = Some (VStr (n_ipString N lo)) /\
    func_maxIP N [VStr s] = Some (VStr (n_ipString N hi)) /\
    ip_ok lo /\ ip_ok hi /\ length lo = c_len c /\ length hi = c_len c /\
    ipval lo mod 2 ^ hostbits c = 0 /\ ipval hi mod 2 ^ hostbits c = 2 ^ hostbits c - 1 /\
    ipval lo = net_lo c /\ ipval hi = net_hi c.
Proof.
  intros N s i c Hp Hc. exists (min_ip c), (max_ip c). unfold func_minIP, func_maxIP, func_ip. rewrite Hp.
  destruct (min_ip_spec c Hc) as [M1 [M2 M3]]. destruct (max_ip_spec c Hc) as [X1 [X2 X3]].
  assert (P : 0 < 2 ^ hostbits c) by (apply Z.pow_pos_nonneg; [lia|apply hostbits_nonneg, Hc]).
  repeat split; auto.
  - apply min_ip_aligned, Hc.
  - rewrite X1, Z.add_mod, min_ip_aligned by (auto; lia). rewrite Z.add_0_l, Z.mod_mod by lia.
    apply Z.mod_small. lia.
  - unfold net_hi, net_lo. rewrite X1, M1. reflexivity.
Qed.
Print Assumptions C14_bounds.

(** membership is exactly the interval between the bounds *)
Theorem C14_contains : forall N s t i c x,
  n_parseCIDR N s = Some (i, c) -> n_parseIP N t = Some x -> cidr_ok c -> ip_ok (to4 x) ->
  length (to4 x) = c_len c ->
  exists b, func_containsIP N [VStr s; VStr t] = Some (VBool b) /\
            (b = true <-> net_lo c <= ipval (to4 x) <= net_hi c).
Proof.
  intros N s t i c x Hs Ht Hc Hx Hl. exists (net_contains c x). unfold func_containsIP. rewrite Hs, Ht.
  split; [reflexivity|]. unfold net_contains. rewrite (contains_spec c (to4 x) Hc Hx Hl).
  destruct (min_ip_spec c Hc) as [M1 _]. destruct (max_ip_spec c Hc) as [X1 _].
  unfold net_hi, net_lo. rewrite X1, M1. reflexivity.
Qed.
Print Assumptions C14_contains.

(** IPv4: the size is the number of addresses between the bounds *)
Theorem C14_num_ip_v4 : forall N s i c,
  n_parseCIDR N s = Some (i, c) -> cidr_ok c -> c_len c = 4%nat ->
  func_numIP N [VStr s] = Some (VInt (net_hi c - net_lo c + 1)).
Proof.
  intros N s i c Hp Hc H4. unfold func_numIP, func_ip. rewrite Hp. do 2 f_equal.
  rewrite num_ip_v4 by assumption.
  destruct (min_ip_spec c Hc) as [M1 _]. destruct (max_ip_spec c Hc) as [X1 _].
  unfold net_hi, net_lo. rewrite X1, M1. reflexivity.
Qed.
Print Assumptions C14_num_ip_v4.

(** IPv6: the size is wrong, e.g. 0 for any prefix length of 33 or more *)
Theorem C14_num_ip_v6_refuted : forall c, cidr_ok c -> (32 < c_ones c <= 128)%nat ->
  num_ip c = 0 /\ num_ip c <> net_hi c - net_lo c + 1.
Proof.
  intros c Hc Ho.
  assert (E : num_ip c = 0).
  { unfold num_ip, size32. 
    replace (32 - Z.of_nat (c_ones c)) with ((4294967296 + 32 - Z.of_nat (c_ones c)) + (-1) * 4294967296) by lia.
    rewrite Z.mod_add by lia. rewrite Z.mod_small by lia.
    destruct (Z.ltb_spec (4294967296 + 32 - Z.of_nat (c_ones c)) 64); [lia|reflexivity]. }
  split; [exact E|]. rewrite E. unfold net_hi.
  assert (0 < 2 ^ hostbits c) by (apply Z.pow_pos_nonneg; [lia|apply hostbits_nonneg, Hc]). lia.
Qed.
Print Assumptions C14_num_ip_v6_refuted.
Example C14_ex :
  n_parseCIDR net4 "10.1.18.17/20" = Some (to16 [10;1;18;17], mkCidr [10;1;16;0] 20) /\
  func_minIP net4 [VStr "10.1.18.17/20"] = Some (VStr "10.1.16.0") /\
  func_maxIP net4 [VStr "10.1.18.17/20"] = Some (VStr "10.1.31.255") /\
  func_numIP net4 [VStr "10.1.18.17/20"] = Some (VInt 4096) /\
  func_containsIP net4 [VStr "10.1.18.17/20"; VStr "10.1.31.7"] = Some (VBool true) /\
  cidr_ok (mkCidr [10;1;16;0] 20).
Proof. repeat split; try reflexivity; [repeat constructor; lia|cbn; lia]. Qed.

(** * C15 *)
(** IPv4: the result is the network with the same base whose prefix is longer by
    the smallest k with 2^k >= n; error iff n < 1 or the network has fewer than n addresses *)
Theorem C15_v4 : forall N s i c n,
  n_parseCIDR N s = Some (i, c) -> cidr_ok c -> c_len c = 4%nat ->
  (op_div N (VStr s) (VInt n) = None <-> n < 1 \/ net_hi c - net_lo c + 1 < n) /\
  (forall v, op_div N (VStr s) (VInt n) = Some v ->
     exists d k, v = VStr (n_cidrString N (c_addr d) (c_ones d) 4) /\
       ipval (c_addr d) = net_lo c /\ net_lo d = net_lo c /\
       Z.of_nat (c_ones d) = Z.of_nat (c_ones c) + k /\
       n <= 2 ^ k /\ (forall k', 0 <= k' -> n <= 2 ^ k' -> k <= k') /\
       2 ^ hostbits c = 2 ^ k * 2 ^ hostbits d).
Proof.
  intros N s i c n Hp Hc H4. unfold op_div. rewrite Hp.
  pose proof Hc as [Ha Ho]. rewrite H4 in Ho.
  assert (Hh : hostbits c = 32 - Z.of_nat (c_ones c)) by (unfold hostbits; rewrite H4; reflexivity).
  split.
  - pose proof (cidr_div_None c n) as Hn. unfold net_hi.
    destruct (cidr_div c n) as [d|]; split; intro H; try discriminate; try reflexivity.
    + exfalso. destruct Hn as [_ Hn]. assert (X : Some d = None); [|discriminate X]. apply Hn.
      destruct H as [H|H]; [left; exact H|].
      destruct (Z.lt_ge_cases n 1); [left; assumption|right].
      assert (hostbits c < Z.log2_up n); [|lia]. apply log2_up_room; lia.
    + destruct Hn as [Hn _]. destruct (Hn eq_refl) as [H1|H1]; [left; exact H1|].
      destruct (Z.lt_ge_cases n 1); [left; assumption|right].
      assert (2 ^ hostbits c < n); [|lia]. apply log2_up_room; lia.
  - intro v. destruct (cidr_div c n) as [d|] eqn:E; [|discriminate].
    intro Hv. inversion Hv; subst v; clear Hv.
    destruct (cidr_div_ones c n d E) as [Hn1 [Hones Haddr]].
    assert (Hnn : ~ (n < 1 \/ 32 < Z.of_nat (c_ones c) + Z.log2_up n)).
    { intro X. apply cidr_div_None in X. congruence. }
    exists d, (Z.log2_up n). rewrite H4. split; [reflexivity|].
    destruct (min_ip_spec c Hc) as [M1 [M2 M3]].
    split; [rewrite Haddr; exact M1|].
    pose proof (Z.log2_up_nonneg n) as Hlog.
    assert (Hd : d = mkCidr (min_ip c) (c_ones d)) by (destruct d as [da dn]; cbn in Haddr |- *; congruence).
    assert (Hld : c_len d = 4%nat) by (unfold c_len; rewrite Haddr, M3; exact H4).
    split.
    { assert (Hdok : cidr_ok d).
      { split; [rewrite Haddr; exact M2|]. rewrite Hld. lia. }
      pose proof (min_ip_spec d Hdok) as [D1 _].
      assert (Em : min_ip d = min_ip c).
      { rewrite Hd. apply min_ip_idem; [exact Hc|]. rewrite H4. lia. }
      unfold net_lo. rewrite <- D1, <- M1, Em. reflexivity. }
    split; [exact Hones|].
    split; [apply (pow2_log2_up n 0); lia|].
    split; [intros k' Hk' Hle; apply (pow2_log2_up n k'); lia|].
    rewrite <- Z.pow_add_r; [f_equal; unfold hostbits; rewrite Hld, H4; lia|lia|unfold hostbits; rewrite Hld; lia].
Qed.
Print Assumptions C15_v4.

(** IPv6: networks with a prefix longer than 32 can never be divided, even by 1 *)
Theorem C15_v6_refuted : forall c n, (32 < c_ones c)%nat -> cidr_div c n = None.
Proof.
  intros c n H. apply cidr_div_None. destruct (Z.lt_ge_cases n 1); [left; assumption|right].
  pose proof (Z.log2_up_nonneg n). lia.
Qed.
Print Assumptions C15_v6_refuted.
Example C15_ex : op_div net4 (VStr "10.1.0.0/16") (VInt 12) = Some (VStr "10.1.0.0/20")
  /\ op_div net4 (VStr "10.1.0.0/30") (VInt 5) = None.
Proof. split; reflexivity. Qed.

(** * C16 *)
Theorem C16_v4 : forall N s i c n,
  n_parseCIDR N s = Some (i, c) -> cidr_ok c -> c_len c = 4%nat -> 0 <= n ->
  2 ^ hostbits c * n <= max64 - 255 ->
  exists d, op_mul N (VStr s) (VInt n) = Some (VStr (n_cidrString N (c_addr d) (c_ones d) 4)) /\
    cidr_ok d /\ c_len d = 4%nat /\ c_ones d = c_ones c /\
    ipval (c_addr d) = (net_lo c + n * 2 ^ hostbits c) mod 2 ^ 32 /\
    (net_hi c + n * 2 ^ hostbits c < 2 ^ 32 ->
       net_lo d = net_lo c + n * 2 ^ hostbits c /\ net_hi d = net_hi c + n * 2 ^ hostbits c).
Proof.
  intros N s i c n Hp Hc H4 Hn Hm. exists (cidr_mul c n). cbn [op_mul]. rewrite Hp.
  destruct (cidr_mul_spec c n Hc H4 Hn Hm) as [E [E1 [E2 E3]]].
  destruct (min_ip_spec c Hc) as [M1 [M2 M3]]. rewrite M1 in E. fold (net_lo c) in E. rewrite Z.mul_comm in E.
  assert (Hh : hostbits (cidr_mul c n) = hostbits c) by (unfold hostbits; rewrite E1, E2, H4; reflexivity).
  rewrite H4. repeat split; auto; try (apply E3).
  - assert (P : 0 < 2 ^ hostbits c) by (apply Z.pow_pos_nonneg; [lia|apply hostbits_nonneg, Hc]).
    unfold net_hi in H. assert (0 <= net_lo c) by (unfold net_lo; rewrite <- M1; apply ipval_range, M2).
    rewrite Z.mod_small in E by nia.
    unfold net_lo at 1. rewrite Hh, E.
    unfold net_lo. rewrite <- Z.mul_add_distr_r, Z.div_mul by lia. reflexivity.
  - assert (P : 0 < 2 ^ hostbits c) by (apply Z.pow_pos_nonneg; [lia|apply hostbits_nonneg, Hc]).
    unfold net_hi in *. assert (0 <= net_lo c) by (unfold net_lo; rewrite <- M1; apply ipval_range, M2).
    rewrite Z.mod_small in E by nia.
    unfold net_lo at 1. rewrite Hh, E.
    unfold net_lo. rewrite <- Z.mul_add_distr_r, Z.div_mul by lia. lia.
Qed.
Print Assumptions C16_v4.
(** negative factors inherit the defect of C12 *)
Theorem C16_refuted : op_mul net4 (VStr "10.0.2.0/24") (VInt (-1)) = Some (VStr "10.0.0.0/24").
Proof. reflexivity. Qed.
Example C16_ex : op_mul net4 (VStr "10.1.3.0/24") (VInt 300) = Some (VStr "10.2.47.0/24").
Proof. reflexivity. Qed.

(** * C17 *)
Theorem C17_first : forall rs num,
  Forall range_ok rs -> total rs <= max64 - 255 -> 0 <= num <= max64 ->
  (num <= total rs ->
     exists l, ipset rs num None = IPOk (map Some l) /\ map ipval l = firstn (Z.to_nat num) (all_vals rs)) /\
  (total rs < num -> ipset rs num None = IPErr).
Proof. exact ipset_first. Qed.
Print Assumptions C17_first.
Theorem C17_indexed : forall rs num idx,
  Forall range_ok rs -> total rs <= max64 - 255 -> Forall (fun i => 0 <= i <= max64) idx ->
  0 <= num ->
  (num <= Z.of_nat (length idx) -> Forall (fun i => i < total rs) (firstn (Z.to_nat num) idx) ->
     exists l, ipset rs num (Some idx) = IPOk (map Some l)
               /\ selects (all_vals rs) (firstn (Z.to_nat num) idx) (map ipval l)) /\
  (Z.of_nat (length idx) < num \/ Exists (fun i => total rs <= i) (firstn (Z.to_nat num) idx) ->
     ipset rs num (Some idx) = IPErr).
Proof. exact ipset_indexed. Qed.
Print Assumptions C17_indexed.
(** the indices: integers, and lists of such nested to any depth (nil in a list is skipped) *)
Inductive indexEl : value -> list Z -> Prop :=
| X_nil : indexEl VNil []
| X_one z : 0 <= z -> indexEl (VInt z) [z]
| X_list l ls : Forall2 (fun n => indexEl (val n)) l ls -> indexEl (VList l) (concat ls).
Definition indexArg (v : value) (ids : list Z) : Prop := indexEl v ids /\ v <> VNil.
Lemma get_indices_el n : forall ids, get_indices n = Some ids <-> indexEl (val n) ids.
Proof.
  induction n as [v a s t r IH] using node_ind'. intro ids. cbn [val]. destruct v; cbn [get_indices val node_sub] in *; try (split; [discriminate|intro H; now inversion H]).
  - split; [intro E; injection E as <-; constructor|intro H; now inversion H].
  - destruct (Z.ltb_spec z 0) as [L|L]; (split; [intro E; try discriminate E; injection E as <-; now constructor|intro H; inversion H; subst; try lia; reflexivity]).
  - set (go := fix go (l : list node) : option (list Z) := match l with [] => Some [] | x :: r => match get_indices x, go r with Some a, Some b => Some (a ++ b) | _, _ => None end end).
    assert (G : forall ids, go l = Some ids <-> exists ls, Forall2 (fun n => indexEl (val n)) l ls /\ ids = concat ls).
    { clear - IH. induction IH as [|n l Hn _ IHl]; intro ids; cbn [go].
      - split; [intro E; injection E as <-; exists []; split; [constructor|reflexivity]|intros (ls & F & ->); inversion F; reflexivity].
      - destruct (get_indices n) as [x|] eqn:E1.
        + pose proof (proj1 (Hn x) eq_refl) as X. fold go. destruct (go l) as [y|] eqn:E2.
          * destruct (proj1 (IHl y) eq_refl) as (ls & F & ->). split; [intro E; injection E as <-; exists (x :: ls); split; [now constructor|reflexivity]|].
            intros (ks & Fk & ->). inversion Fk as [|? k ? ks' K F']; subst. apply Hn in K. injection K as ->. cbn [concat]. f_equal. f_equal.
            assert (Q : Some (concat ls) = Some (concat ks')) by (apply IHl; eauto). now injection Q as ->.
          * split; [discriminate|]. intros (ks & Fk & ->). inversion Fk as [|? k ? ks' K F']; subst. assert (Q : None = Some (concat ks')) by (apply IHl; eauto). discriminate Q.
        + split; [discriminate|]. intros (ks & Fk & ->). inversion Fk as [|? k ? ks' K F']; subst. apply Hn in K. discriminate K. }
    fold go. rewrite G. split; [intros (ls & F & ->); now constructor|intro H; inversion H; subst; eauto].
Qed.
Lemma ipset_indices_args rest : forall ids, ipset_indices rest = Some ids <-> exists ls, Forall2 indexArg rest ls /\ ids = concat ls.
Proof.
  induction rest as [|v rest IH]; intro ids.
  - split; [intro E; injection E as <-; exists []; split; [constructor|reflexivity]|intros (ls & F & ->); inversion F; reflexivity].
  - assert (C : ipset_indices (v :: rest) = match (match v with VNil | VGoInt _ => None | _ => get_indices (newNode v "") end), ipset_indices rest with Some a, Some b => Some (a ++ b) | _, _ => None end).
    { cbn [ipset_indices]. destruct v; try reflexivity. change (get_indices (newNode (VInt z) "")) with (if z <? 0 then None else Some [z]). destruct (z <? 0); [reflexivity|]. now destruct (ipset_indices rest). }
    rewrite C. assert (W : forall x, (match v with VNil | VGoInt _ => None | _ => get_indices (newNode v "") end) = Some x <-> indexArg v x).
    { intro x. unfold indexArg. destruct v; try (split; [discriminate|intros [H N]; inversion H; subst; congruence]).
      all: match goal with |- context [get_indices (newNode ?w _)] => rewrite (get_indices_el (newNode w "") x : _ <-> indexEl w x) end; split; [intro; split; [assumption|discriminate]|now intros [? _]]. }
    clear C. destruct (match v with VNil | VGoInt _ => None | _ => _ end) as [x|].
    + pose proof (proj1 (W x) eq_refl) as X. destruct (ipset_indices rest) as [y|].
      * destruct (proj1 (IH y) eq_refl) as (ls & F & ->). split; [intro E; injection E as <-; exists (x :: ls); split; [now constructor|reflexivity]|].
        intros (ks & Fk & ->). inversion Fk as [|? k ? ks' K F']; subst. apply W in K. injection K as ->. cbn [concat]. f_equal. f_equal.
        assert (Q : Some (concat ls) = Some (concat ks')) by (apply IH; eauto). now injection Q as ->.
      * split; [discriminate|]. intros (ks & Fk & ->). inversion Fk as [|? k ? ks' K F']; subst. assert (Q : None = Some (concat ks')) by (apply IH; eauto). discriminate Q.
    + split; [discriminate|]. intros (ks & Fk & ->). inversion Fk as [|? k ? ks' K F']; subst. apply W in K. discriminate K.
Qed.
(** the call: all index arguments together, in their order, are the indices *)
Theorem C17_call : forall N l ranges rs num rest,
  map val l = map VStr ranges -> parse_ranges N ranges = Some rs ->
  (forall ids, rest <> [] -> Forall2 indexArg rest ids -> func_ipset N (VList l :: VInt num :: rest) = ipset rs num (Some (concat ids))) /\
  func_ipset N [VList l; VInt num] = ipset rs num None /\
  ((forall ids, ~ Forall2 indexArg rest ids) -> func_ipset N (VList l :: VInt num :: rest) = IPErr).
Proof.
  intros N l ranges rs num rest M P.
  assert (S : string_list l = Some ranges).
  { clear P. revert ranges M. induction l as [|n l IH]; intros [|r ranges] M; try discriminate M; [reflexivity|]. cbn in M. injection M as E M. cbn [string_list]. now rewrite E, (IH _ M). }
  unfold func_ipset. rewrite S, P. split; [|split; [reflexivity|]].
  - intros ids NE F. rewrite (proj2 (ipset_indices_args rest (concat ids)) ltac:(eauto)). destruct rest; [congruence|reflexivity].
  - intro NF. destruct (ipset_indices rest) as [x|] eqn:E; [|reflexivity]. apply ipset_indices_args in E as (ls & F & _). now apply NF in F.
Qed.
Print Assumptions C17_call.
Example C17_call_ex : Forall2 indexArg [VInt 0; VList [newNode (VInt 3) ""; newNode VNil ""; newNode (VList [newNode (VInt 1) ""]) ""]] [[0]; [3; 1]].
Proof.
  constructor; [split; [constructor; lia|discriminate]|]. constructor; [split; [|discriminate]|constructor].
  apply (X_list [newNode (VInt 3) ""; newNode VNil ""; newNode (VList [newNode (VInt 1) ""]) ""] [[3]; []; [1]]). repeat constructor; try lia.
  apply (X_list [newNode (VInt 1) ""] [[1]]). repeat constructor; lia.
Qed.
(** a negative number of addresses crashes *)
Theorem C17_negative_refuted : forall rs num, num < 0 -> ipset rs num None = IPPanic.
Proof. intros rs num H. unfold ipset. destruct (Z.ltb_spec num 0); [reflexivity|lia]. Qed.
(** the pool of static_ips: all addresses from start to end *)
Theorem C17_static_range : forall n a b,
  ip_ok a -> ip_ok b -> length a = length b -> ipval b = ipval a + Z.of_nat n ->
  exists l, ip_range (S n) a b = Some l /\ map ipval l = map (fun k => ipval a + k) (zseq (Z.of_nat n + 1)).
Proof. exact ip_range_spec. Qed.
Print Assumptions C17_static_range.
Example C17_ex :
  func_ipset net4 [VList [newNode (VStr "10.0.1.254 - 10.0.2.1") ""; newNode (VStr "10.1.0.0/30") ""]; VInt 2; VInt 5; VInt 2]
  = IPOk [Some [10;1;0;1]; Some (to16 [10;0;2;0])]
  /\ range_ok (RSpan [10;0;1;254] [10;0;2;1]) /\ range_ok (RCidr (mkCidr [10;1;0;0] 30)).
Proof.
  split; [reflexivity|]. cbn [range_ok]. repeat split; try reflexivity; try (repeat constructor; lia); cbn; unfold max64; lia.
Qed.

Print Assumptions C16_refuted.
Print Assumptions C17_negative_refuted.
