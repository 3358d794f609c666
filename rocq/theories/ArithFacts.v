(** Proofs about Arith.v. *)
From Coq Require Import Lia.
From Verif Require Import Core CoreFacts Str IP IPSpec IPFacts IPFacts2 Arith.

(** ** integer operators *)
Lemma wrap_cong z : in64 (wrap64 z) /\ (wrap64 z - z) mod two64 = 0.
Proof.
  split; [apply wrap64_range|]. unfold wrap64.
  replace ((z + two63) mod two64 - two63 - z) with ((z + two63) mod two64 - (z + two63)) by lia.
  rewrite Zminus_mod, Z.mod_mod, Z.sub_diag by (unfold two64; lia). reflexivity.
Qed.

Lemma quot_in64 a b : in64 a -> b <> 0 -> (a, b) <> (min64, -1) -> in64 (Z.quot a b).
Proof.
  intros Ha Hb Hn. unfold in64 in *.
  destruct (Z.eq_dec b (-1)) as [->|Hm1].
  - change (-1) with (- (1)). rewrite Z.quot_opp_r, Z.quot_1_r by lia.
    assert (a <> min64) by congruence. unfold min64, max64 in *. lia.
  - assert (Z.abs (Z.quot a b) <= Z.abs a).
    { rewrite <- Z.quot_abs by lia. apply Z.quot_le_upper_bound; [lia|]. nia. }
    assert (a = min64 -> Z.quot a b <> max64 + 1).
    { intros -> E. 
      destruct (Z.eq_dec b 1) as [->|H1]; [rewrite Z.quot_1_r in E; unfold min64, max64 in E; lia|].
      assert (Z.abs (Z.quot min64 b) <= 2 ^ 62).
      { rewrite <- Z.quot_abs by lia. apply Z.quot_le_upper_bound; [lia|]. unfold min64. change (2 ^ 62) with 4611686018427387904. lia. }
      unfold max64 in E. change (2 ^ 62) with 4611686018427387904 in *. lia. }
    unfold min64, max64 in *. lia.
Qed.

Lemma rem_in64 a b : in64 a -> in64 (Z.rem a b).
Proof.
  intro Ha. unfold in64 in *. destruct (Z.eq_dec b 0) as [->|Hb].
  - destruct a; exact Ha.
  - assert (Z.abs (Z.rem a b) <= Z.abs a).
    { rewrite <- Z.rem_abs by lia. apply Z.rem_le; lia. }
    pose proof (Z.rem_sign_nz a b Hb) as Hs.
    assert (0 <= a -> 0 <= Z.rem a b) by (intro; apply Z.rem_nonneg; lia).
    assert (a <= 0 -> Z.rem a b <= 0) by (intro; apply Z.rem_nonpos; lia).
    unfold min64, max64 in *. lia.
Qed.

(** ** IP addition for small negative offsets *)
Lemma ip_add_small_neg a o : ip_ok a -> -255 <= o <= 0 ->
  ipval (ip_add a o) = (ipval a + o) mod space (length a).
Proof.
  intros Ha Ho. apply ip_add_exact; [exact Ha|unfold min64, max64; lia|].
  intros j Hj [Hneg Hmod]. unfold space in *.
  set (x := ipval a mod 256 ^ Z.of_nat j) in *.
  assert (Hx : 0 <= x < 256 ^ Z.of_nat j) by (apply Z.mod_pos_bound; apply pow256_pos).
  destruct j as [|[|j]]; [lia| |].
  - change (Z.of_nat (1 - 1)) with 0 in Hmod. rewrite Z.pow_0_r, Z.div_1_r in Hmod.
    apply Z.mod_divide in Hmod; [|lia]. destruct Hmod as [q Hq]. lia.
  - assert (E : (x + o) / 256 ^ Z.of_nat (S (S j) - 1) = -1).
    { symmetry. apply (Z.div_unique _ _ (-1) (x + o + 256 ^ Z.of_nat (S (S j) - 1))); [|lia].
      left. replace (Z.of_nat (S (S j) - 1)) with (Z.succ (Z.of_nat j)) by lia.
      rewrite Z.pow_succ_r by lia. pose proof (pow256_pos j). lia. }
    rewrite E in Hmod. discriminate Hmod.
Qed.

Lemma ip_add_back a o :
  ip_ok a -> 0 <= o <= max64 - 255 ->
  ipval (ip_add a (- o)) = (ipval a - o) mod space (length a) ->
  ip_add (ip_add a (- o)) o = a.
Proof.
  intros Ha Ho He. apply ipval_inj.
  - rewrite !ip_add_length. reflexivity.
  - apply ip_add_ok, ip_add_ok, Ha.
  - exact Ha.
  - rewrite ip_add_nonneg by (auto using ip_add_ok). rewrite He, ip_add_length.
    rewrite Z.add_mod_idemp_l by (unfold space; pose proof (pow256_pos (length a)); lia).
    replace (ipval a - o + o) with (ipval a) by lia. apply Z.mod_small. apply ipval_range, Ha.
Qed.

(** ** CIDR division for IPv4 *)
Lemma log2_up_room b h : 1 <= b -> 0 <= h -> (h < Z.log2_up b <-> 2 ^ h < b).
Proof.
  intros Hb Hh. split; intro H.
  - destruct (Z.le_gt_cases b (2 ^ h)) as [Hle|]; [|assumption].
    apply Z.log2_up_le_mono in Hle. rewrite Z.log2_up_pow2 in Hle by lia. lia.
  - destruct (Z.lt_ge_cases h (Z.log2_up b)) as [|Hge]; [assumption|].
    assert (b <= 2 ^ h); [|lia].
    destruct (Z.eq_dec b 1) as [->|]; [pose proof (Z.pow_pos_nonneg 2 h); lia|].
    pose proof (Z.log2_up_spec b ltac:(lia)) as [_ Hs].
    assert (2 ^ Z.log2_up b <= 2 ^ h) by (apply Z.pow_le_mono_r; lia). lia.
Qed.

Lemma pow2_log2_up b k : 1 <= b -> 0 <= k -> (b <= 2 ^ Z.log2_up b) /\ (b <= 2 ^ k -> Z.log2_up b <= k).
Proof.
  intros Hb Hk. split.
  - destruct (Z.eq_dec b 1) as [->|]; [cbn; lia|]. apply Z.log2_up_spec. lia.
  - intro H. apply Z.log2_up_le_mono in H. rewrite Z.log2_up_pow2 in H by lia. exact H.
Qed.

Lemma min_ip_idem c : cidr_ok c -> forall o, (c_ones c <= o <= 8 * c_len c)%nat ->
  min_ip (mkCidr (min_ip c) o) = min_ip c.
Proof.
  intros Hc o Ho. destruct (min_ip_spec c Hc) as [M1 [M2 M3]].
  assert (Hd : cidr_ok (mkCidr (min_ip c) o)).
  { split; cbn [c_addr c_ones]; [exact M2|]. unfold c_len. cbn [c_addr]. rewrite M3. lia. }
  destruct (min_ip_spec _ Hd) as [D1 [D2 D3]].
  apply ipval_inj; auto.
  - rewrite D1. cbn [c_addr]. rewrite M1. unfold hostbits, c_len. cbn [c_addr c_ones].
    rewrite M3. unfold c_len in *.
    set (h := 8 * Z.of_nat (length (c_addr c)) - Z.of_nat (c_ones c)).
    set (h' := 8 * Z.of_nat (length (c_addr c)) - Z.of_nat o).
    assert (E : 2 ^ h = 2 ^ (h - h') * 2 ^ h') by (rewrite <- Z.pow_add_r by lia; f_equal; lia).
    assert (P : 0 < 2 ^ h') by (apply Z.pow_pos_nonneg; lia).
    rewrite E, Z.mul_assoc, Z.div_mul by lia. reflexivity.
Qed.
