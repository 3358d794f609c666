(** C11, C12, C17: mixed operands, floats, addresses with a network, static_ips. *)
From Coq Require Import Lia Floats.SpecFloat.
From Verif Require Import Core CoreFacts Str IP IPSpec IPFacts IPFacts2 Arith ArithFacts PropArith.

(** an integer operand besides a float operand is converted; the order is kept *)
Theorem C11_mixed : forall N x y op, In op [op_add N; op_sub N; op_mul N; op_div N] ->
  op (VFloat x) (VInt y) = op (VFloat x) (VFloat (binary_normalize 53 1024 y 0 false)) /\
  op (VInt y) (VFloat x) = op (VFloat (binary_normalize 53 1024 y 0 false)) (VFloat x).
Proof. intros N x y op [<-|[<-|[<-|[<-|[]]]]]; split; reflexivity. Qed.
(** floats: IEEE 754 double arithmetic (Coq's SpecFloat), division by any zero is an error *)
Theorem C11_floats : forall N x y,
  op_add N (VFloat x) (VFloat y) = Some (VFloat (SFadd 53 1024 x y)) /\
  op_sub N (VFloat x) (VFloat y) = Some (VFloat (SFsub 53 1024 x y)) /\
  op_mul N (VFloat x) (VFloat y) = Some (VFloat (SFmul 53 1024 x y)) /\
  (op_div N (VFloat x) (VFloat y) = None <-> exists b, y = S754_zero b) /\
  ((forall b, y <> S754_zero b) -> op_div N (VFloat x) (VFloat y) = Some (VFloat (SFdiv 53 1024 x y))).
Proof.
  intros N x y. repeat split; try reflexivity.
  - cbn. destruct y; cbn; intro H; try discriminate. eauto.
  - intros [b ->]. reflexivity.
  - intro H. cbn. destruct y; try reflexivity. exfalso. eapply H. reflexivity.
Qed.
(** every other operand is rejected *)
Theorem C11_rejected : forall N a b, (forall s, a <> VStr s) ->
  ((forall z, a <> VInt z) /\ (forall f, a <> VFloat f)) \/ ((forall z, b <> VInt z) /\ (forall f, b <> VFloat f)) ->
  op_add N a b = None /\ op_sub N a b = None /\ op_mul N a b = None /\ op_div N a b = None /\ op_mod a b = None.
Proof.
  intros N a b S0 H.
  assert (X : numberOperands a b = NNone).
  { destruct H as [[H1 H2]|[H1 H2]].
    - destruct a; try reflexivity; [edestruct H1|edestruct H2]; reflexivity.
    - destruct b; destruct a; try reflexivity; try (edestruct H1; reflexivity); edestruct H2; reflexivity. }
  assert (Y : op_mod a b = None).
  { destruct H as [[H1 H2]|[H1 H2]].
    - destruct a; try reflexivity. edestruct H1; reflexivity.
    - destruct a; try reflexivity. destruct b; try reflexivity. edestruct H1; reflexivity. }
  repeat split; try exact Y; destruct a; try reflexivity; try (edestruct S0; reflexivity);
    cbn [op_add op_sub op_mul op_div]; rewrite X; reflexivity.
Qed.
Example C11_mixed_ex : op_sub net4 (VInt 3) (VFloat (S754_finite false 1 0)) = Some (VFloat (S754_finite false 4503599627370496 (-51)))
  /\ op_sub net4 (VFloat (S754_finite false 1 0)) (VInt 3) = Some (VFloat (S754_finite true 4503599627370496 (-51))).
Proof. split; vm_compute; reflexivity. Qed.

(** ** an address with its network *)
Lemma to16_val w x y z : ipval (to16 [w;x;y;z]) = 65535 * 4294967296 + ipval [w;x;y;z].
Proof. unfold ipval, to16. cbn [fold_left]. lia. Qed.
Lemma ip4_split r : ip_ok r -> length r = 16%nat ->
  exists h t, r = h ++ t /\ length h = 12%nat /\ length t = 4%nat /\ ip_ok h /\ ip_ok t /\ ipval r = ipval h * 4294967296 + ipval t.
Proof.
  intros O L. exists (firstn 12 r), (skipn 12 r).
  assert (E : r = firstn 12 r ++ skipn 12 r) by (symmetry; apply firstn_skipn).
  split; [exact E|]. split; [rewrite firstn_length; lia|]. split; [rewrite skipn_length; lia|].
  assert (Oh : ip_ok (firstn 12 r)) by (unfold ip_ok in *; rewrite E in O; apply Forall_app in O; apply O).
  assert (Ot : ip_ok (skipn 12 r)) by (unfold ip_ok in *; rewrite E in O; apply Forall_app in O; apply O).
  split; [exact Oh|]. split; [exact Ot|].
  do 16 (destruct r as [|? r]; [discriminate|]). destruct r; [|discriminate].
  unfold ipval. cbn [firstn skipn fold_left]. lia.
Qed.
Lemma to4_prefix h t : ip_ok h -> length h = 12%nat -> length t = 4%nat -> ipval h = 65535 -> to4 (h ++ t) = t.
Proof.
  intros O L Lt E. assert (X : h = [0;0;0;0;0;0;0;0;0;0;255;255]).
  { apply ipval_inj; [exact L|exact O|repeat constructor; lia|exact E]. }
  subst h. do 4 (destruct t as [|? t]; [discriminate|]). destruct t; [reflexivity|discriminate].
Qed.
Lemma to4_len r w : length r = 16%nat -> length (to4 r) = 4%nat -> to4 r = w -> ip_ok r ->
  exists h, r = h ++ w /\ length h = 12%nat /\ ipval h = 65535.
Proof.
  intros L L4 E O. do 16 (destruct r as [|? r]; [discriminate|]). destruct r; [|discriminate].
  unfold to4 in *.
  repeat match type of L4 with
  | context[match ?q with _ => _ end] => destruct q; try discriminate
  end. subst w. eexists [0;0;0;0;0;0;0;0;0;0;255;255]. repeat split.
Qed.

(** an IPv4 address with prefix length: the result is the moved address with the same
    prefix length, and it is an error to leave the network *)
Theorem C12_network : forall N s a c n,
  n_parseIP N s = None -> n_parseCIDR N s = Some (to16 a, c) -> length a = 4%nat -> ip_ok a ->
  cidr_ok c -> c_len c = 4%nat -> 0 <= n <= max64 - 255 ->
  (ipval a + n <= net_hi c -> net_lo c <= ipval a + n -> exists r b,
     op_add N (VStr s) (VInt n) = Some (VStr (n_cidrString N r (c_ones c) 4)) /\
     r = to16 b /\ length b = 4%nat /\ ip_ok b /\ ipval b = ipval a + n) /\
  ((net_hi c < ipval a + n \/ ipval a + n < net_lo c) -> op_add N (VStr s) (VInt n) = None).
Proof.
  intros N s a c n Hp Hc La Oa Oc L4 Hn.
  assert (E : op_add N (VStr s) (VInt n) =
    (if net_contains c (ip_add (to16 a) n) then Some (VStr (n_cidrString N (ip_add (to16 a) n) (c_ones c) 4)) else None)).
  { cbn [op_add]. unfold operandIP. rewrite Hp, Hc. unfold ip_offset. rewrite L4. reflexivity. }
  assert (O16 : ip_ok (to16 a)).
  { destruct a as [|w [|x [|y [|z [|]]]]]; try discriminate. unfold to16, ip_ok in *. repeat constructor; try lia; inversion Oa; subst; try lia.
    - inversion H2; subst. lia.
    - inversion H2; subst. lia.
    - inversion H2; subst. inversion H4; subst. lia.
    - inversion H2; subst. inversion H4; subst. lia.
    - inversion H2; subst. inversion H4; subst. inversion H6; subst. lia.
    - inversion H2; subst. inversion H4; subst. inversion H6; subst. lia. }
  assert (L16 : length (to16 a) = 16%nat) by (destruct a as [|w [|x [|y [|z [|]]]]]; try discriminate; reflexivity).
  assert (V16 : ipval (to16 a) = 65535 * 4294967296 + ipval a) by (destruct a as [|w [|x [|y [|z [|]]]]]; try discriminate; apply to16_val).
  set (r := ip_add (to16 a) n) in *.
  assert (Or : ip_ok r) by (apply ip_add_ok, O16).
  assert (Lr : length r = 16%nat) by (unfold r; rewrite ip_add_length; exact L16).
  assert (Ra : 0 <= ipval a < 4294967296) by (pose proof (ipval_range a Oa) as R; rewrite La in R; exact R).
  assert (Vr : ipval r = 65535 * 4294967296 + ipval a + n).
  { unfold r. rewrite ip_add_nonneg by assumption. rewrite L16, V16. apply Z.mod_small.
    change (space 16) with 340282366920938463463374607431768211456. unfold max64 in Hn. lia. }
  destruct (ip4_split r Or Lr) as [h [t [Er [Lh [Lt [Oh [Ot Sv]]]]]]].
  assert (Rt : 0 <= ipval t < 4294967296) by (pose proof (ipval_range t Ot) as R; rewrite Lt in R; exact R).
  assert (Rc : 0 <= net_lo c /\ net_hi c < 4294967296).
  { destruct (min_ip_spec c Oc) as [M1 [M2 M3]]. destruct (max_ip_spec c Oc) as [X1 [X2 X3]].
    pose proof (ipval_range _ M2) as R1. pose proof (ipval_range _ X2) as R2.
    assert (Q1 : length (max_ip c) = 4%nat) by congruence. rewrite Q1 in R2. change (space 4) with 4294967296 in R2.
    unfold net_hi, net_lo in *. lia. }
  assert (CS : ipval a + n < 4294967296 -> to4 r = t /\ ipval t = ipval a + n).
  { intro B. assert (ipval h = 65535) by nia. split; [|nia]. rewrite Er. apply to4_prefix; assumption. }
  assert (CN : 4294967296 <= ipval a + n -> net_contains c r = false).
  { intro B. unfold net_contains, cidr_contains. destruct (Nat.eqb_spec (length (to4 r)) (c_len c)) as [X|X]; [|reflexivity].
    exfalso. rewrite L4 in X. destruct (to4_len r (to4 r) Lr X eq_refl Or) as [h' [Er' [Lh' Eh']]].
    assert (h' = h) by (rewrite Er in Er' at 1; apply app_inj_tail_iff || idtac; eapply (f_equal (firstn 12)) in Er';
      rewrite firstn_app, Lh, Nat.sub_diag, firstn_O, app_nil_r, firstn_all2 in Er' by lia;
      rewrite firstn_app, Lh', Nat.sub_diag, firstn_O, app_nil_r, firstn_all2 in Er' by lia; congruence).
    subst h'. nia. }
  rewrite E. split.
  - intros B1 B2. destruct (CS ltac:(lia)) as [C1 C2].
    assert (K : net_contains c r = true).
    { unfold net_contains. rewrite C1. rewrite contains_spec by (try assumption; congruence).
      destruct (min_ip_spec c Oc) as [M1 _]. destruct (max_ip_spec c Oc) as [X1 _].
      unfold net_hi, net_lo in *. lia. }
    rewrite K. exists r, t. split; [reflexivity|]. split; [|auto].
    rewrite Er. assert (Eh : ipval h = 65535) by nia.
    assert (X : h = [0;0;0;0;0;0;0;0;0;0;255;255]) by (apply ipval_inj; [exact Lh|exact Oh|repeat constructor; lia|exact Eh]).
    rewrite X. destruct t as [|t1 [|t2 [|t3 [|t4 [|]]]]]; try discriminate. reflexivity.
  - intro B. destruct (Z.lt_ge_cases (ipval a + n) 4294967296) as [G|G]; [|rewrite CN by exact G; reflexivity].
    destruct (CS G) as [C1 C2].
    destruct (net_contains c r) eqn:K; [|reflexivity]. exfalso.
    unfold net_contains in K. rewrite C1 in K. rewrite contains_spec in K by (try assumption; congruence).
    destruct (min_ip_spec c Oc) as [M1 _]. destruct (max_ip_spec c Oc) as [X1 _]. unfold net_hi, net_lo in *. lia.
Qed.
Example C12_network_ex : op_add net4 (VStr "10.0.0.250/24") (VInt 5) = Some (VStr "10.0.0.255/24")
  /\ op_add net4 (VStr "10.0.0.250/24") (VInt 6) = None.
Proof. split; reflexivity. Qed.

(** ** static_ips *)
Lemma F2_length {A B} (R : A -> B -> Prop) l l' : Forall2 R l l' -> length l = length l'.
Proof. induction 1; cbn; congruence. Qed.
(** the selection of addresses by indices: an index beyond the pool is an error, as is
    a request for more instances than indices *)
Theorem C17_static_ips : forall pool idx instances, idx <> [] -> Forall (fun i => 0 <= i) idx -> 0 <= instances ->
  (Exists (fun i => Z.of_nat (length pool) <= i) idx -> static_ips pool idx instances = IPErr) /\
  (Forall (fun i => i < Z.of_nat (length pool)) idx -> Z.of_nat (length idx) < instances -> static_ips pool idx instances = IPErr) /\
  (Forall (fun i => i < Z.of_nat (length pool)) idx -> instances <= Z.of_nat (length idx) ->
     exists l, static_ips pool idx instances = IPOk l /\
       Forall2 (fun i a => nth_error pool (Z.to_nat i) = Some a) (firstn (Z.to_nat instances) idx) l).
Proof.
  intros pool idx instances NE P I0.
  assert (G1 : Exists (fun i => Z.of_nat (length pool) <= i) idx -> static_select pool idx = IPErr).
  { clear NE. induction P as [|i r Hi P IH]; intro H; [inversion H|]. cbn [static_select].
    destruct (Z.leb_spec (Z.of_nat (length pool)) i) as [L|L]; [reflexivity|].
    destruct (Z.ltb_spec i 0); [lia|]. inversion H; subst; [lia|].
    destruct (nth_error pool (Z.to_nat i)) eqn:E; [|apply nth_error_None in E; lia]. rewrite (IH H2). reflexivity. }
  assert (G2 : Forall (fun i => i < Z.of_nat (length pool)) idx -> exists l, static_select pool idx = IPOk l /\
     Forall2 (fun i a => nth_error pool (Z.to_nat i) = Some a) idx l).
  { clear NE G1. induction P as [|i r Hi P IH]; intro H; [exists []; split; [reflexivity|constructor]|]. cbn [static_select].
    inversion H; subst. destruct (Z.leb_spec (Z.of_nat (length pool)) i) as [L|L]; [lia|].
    destruct (Z.ltb_spec i 0); [lia|].
    destruct (nth_error pool (Z.to_nat i)) eqn:E; [|apply nth_error_None in E; lia].
    destruct (IH H3) as [l [E1 F]]. rewrite E1. exists (i0 :: l). split; [reflexivity|]. constructor; assumption. }
  assert (S0 : forall q, static_select pool idx = q -> static_ips pool idx instances =
     match q with IPOk l => if Z.of_nat (length l) <? instances then IPErr else if instances <? 0 then IPPanic
                            else IPOk (firstn (Z.to_nat instances) l) | e => e end).
  { intros q <-. unfold static_ips. destruct idx as [|z0 idx0]; [congruence|]. destruct (static_select pool (z0 :: idx0)); reflexivity. }
  split; [|split].
  - intro H. rewrite (S0 _ (G1 H)). reflexivity.
  - intros H L. destruct (G2 H) as [l [E F]]. rewrite (S0 _ E). rewrite <- (F2_length _ _ _ F).
    destruct (Z.ltb_spec (Z.of_nat (length idx)) instances); [reflexivity|lia].
  - intros H L. destruct (G2 H) as [l [E F]]. rewrite (S0 _ E). rewrite <- (F2_length _ _ _ F).
    destruct (Z.ltb_spec (Z.of_nat (length idx)) instances); [lia|]. destruct (Z.ltb_spec instances 0); [lia|].
    exists (firstn (Z.to_nat instances) l). split; [reflexivity|].
    clear - F. revert l F. generalize (Z.to_nat instances) as k. induction idx as [|i r IH]; intros k l F; inversion F; subst.
    + rewrite !firstn_nil. constructor.
    + destruct k; cbn; [constructor|]. constructor; auto.
Qed.

Print Assumptions C11_mixed.
Print Assumptions C11_floats.
Print Assumptions C11_rejected.
Print Assumptions C12_network.
Print Assumptions C17_static_ips.
