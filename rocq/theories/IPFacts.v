(** Proofs about IP.v. The specification side: the numeric value of an address. *)
From Coq Require Import Lia ZifyBool ZifyNat.
From Verif Require Import Core CoreFacts IP IPSpec.
Ltac Zify.zify_post_hook ::= Z.div_mod_to_equations.

(** little-endian value *)
Fixpoint leval (l : list Z) : Z := match l with [] => 0 | b :: r => b + 256 * leval r end.

Lemma leval_app l1 l2 : leval (l1 ++ l2) = leval l1 + 256 ^ Z.of_nat (length l1) * leval l2.
Proof.
  induction l1 as [|b r IH].
  - cbn [app leval length]. change (Z.of_nat 0) with 0. lia.
  - cbn [app leval length]. rewrite IH, Nat2Z.inj_succ, Z.pow_succ_r by lia. lia.
Qed.

Lemma ipval_acc a acc : fold_left (fun acc b => acc * 256 + b) a acc
                        = acc * 256 ^ Z.of_nat (length a) + leval (rev a).
Proof.
  revert acc. induction a as [|b r IH]; intro acc.
  - cbn [fold_left length rev leval]. change (Z.of_nat 0) with 0. lia.
  - cbn [fold_left length rev]. rewrite IH, leval_app, rev_length.
    cbn [leval]. rewrite Nat2Z.inj_succ, Z.pow_succ_r by lia. lia.
Qed.

Lemma ipval_leval a : ipval a = leval (rev a).
Proof. unfold ipval. rewrite ipval_acc. lia. Qed.

Lemma pow256_pos n : 0 < 256 ^ Z.of_nat n.
Proof. apply Z.pow_pos_nonneg; lia. Qed.

Lemma leval_range l : Forall (fun b => 0 <= b < 256) l -> 0 <= leval l < 256 ^ Z.of_nat (length l).
Proof.
  induction l as [|b r IH]; intro H.
  - cbn. lia.
  - inversion H as [|? ? Hb Hr]; subst. specialize (IH Hr).
    cbn [leval length]. rewrite Nat2Z.inj_succ, Z.pow_succ_r by lia. lia.
Qed.

Lemma leval_inj l1 l2 :
  length l1 = length l2 -> Forall (fun b => 0 <= b < 256) l1 -> Forall (fun b => 0 <= b < 256) l2 ->
  leval l1 = leval l2 -> l1 = l2.
Proof.
  revert l2. induction l1 as [|b r IH]; intros [|c s] Hl H1 H2 He; try discriminate; [reflexivity|].
  inversion H1 as [|? ? Hb Hr]; subst. inversion H2 as [|? ? Hc Hs]; subst.
  cbn [leval] in He. assert (b = c) by lia. subst c. f_equal. apply IH; auto; lia.
Qed.

Lemma ip_ok_rev a : ip_ok a <-> Forall (fun b => 0 <= b < 256) (rev a).
Proof.
  unfold ip_ok. split; intro H.
  - exact (Forall_rev H).
  - rewrite <- (rev_involutive a). exact (Forall_rev H).
Qed.

Lemma ipval_range a : ip_ok a -> 0 <= ipval a < space (length a).
Proof.
  intro H. rewrite ipval_leval. unfold space. rewrite <- rev_length.
  apply leval_range. apply (proj1 (ip_ok_rev _)). exact H.
Qed.

(** an address is determined by its value and length *)
Lemma ipval_inj a b : length a = length b -> ip_ok a -> ip_ok b -> ipval a = ipval b -> a = b.
Proof.
  intros Hl Ha Hb He. rewrite !ipval_leval in He.
  apply leval_inj in He; [|rewrite !rev_length; exact Hl|apply (proj1 (ip_ok_rev _)); exact Ha|apply (proj1 (ip_ok_rev _)); exact Hb].
  rewrite <- (rev_involutive a), <- (rev_involutive b). congruence.
Qed.

(** ** IPAdd *)
Lemma ip_add_rev_length l o : length (ip_add_rev l o) = length l.
Proof.
  revert o. induction l as [|b r IH]; intro o; cbn [ip_add_rev length]; [reflexivity|].
  destruct (_ =? 0); cbn [length]; [reflexivity|]. rewrite IH. reflexivity.
Qed.
Lemma ip_add_length a o : length (ip_add a o) = length a.
Proof. unfold ip_add. rewrite rev_length, ip_add_rev_length, rev_length. reflexivity. Qed.

Lemma byte_of_range x : 0 <= byte_of x < 256.
Proof. unfold byte_of. apply Z.mod_pos_bound. lia. Qed.

Lemma ip_add_rev_ok l o : Forall (fun b => 0 <= b < 256) l -> Forall (fun b => 0 <= b < 256) (ip_add_rev l o).
Proof.
  revert o. induction l as [|b r IH]; intros o H; cbn [ip_add_rev]; [constructor|].
  inversion H as [|? ? Hb Hr]; subst.
  destruct (_ =? 0); constructor; auto using byte_of_range.
Qed.
Lemma ip_add_ok a o : ip_ok a -> ip_ok (ip_add a o).
Proof.
  intro H. unfold ip_add, ip_ok. apply Forall_rev. apply ip_add_rev_ok. apply Forall_rev. exact H.
Qed.

Lemma ip_add_rev_nonneg l o :
  Forall (fun b => 0 <= b < 256) l -> 0 <= o <= max64 - 255 ->
  leval (ip_add_rev l o) = (leval l + o) mod 256 ^ Z.of_nat (length l).
Proof.
  revert o. induction l as [|b r IH]; intros o H Ho.
  - cbn [ip_add_rev leval length]. change (Z.of_nat 0) with 0. rewrite Z.pow_0_r, Z.mod_1_r. reflexivity.
  - inversion H as [|? ? Hb Hr]; subst. cbn [ip_add_rev].
    rewrite (wrap64_id (o + b)) by (unfold in64, min64, max64 in *; lia).
    destruct (Z.ltb_spec (o + b) 0) as [|Hge]; [lia|].
    pose proof (leval_range r Hr) as Hrr.
    cbn [leval length]. rewrite Nat2Z.inj_succ, Z.pow_succ_r by lia.
    assert (Hq : Z.quot (o + b) 256 = (o + b) / 256) by (apply Z.quot_div_nonneg; lia).
    rewrite Hq.
    pose proof (pow256_pos (length r)) as Hp.
    assert (Hsplit : (b + 256 * leval r + o) mod (256 * 256 ^ Z.of_nat (length r))
                     = (o + b) mod 256 + 256 * ((leval r + (o + b) / 256) mod 256 ^ Z.of_nat (length r))).
    { rewrite Z.rem_mul_r by lia.
      replace (b + 256 * leval r + o) with ((o + b) + leval r * 256) by lia.
      rewrite Z.mod_add, Z.div_add by lia. f_equal. f_equal. f_equal. lia. }
    destruct (Z.eqb_spec ((o + b) / 256) 0) as [Hz|Hnz]; cbn [leval]; rewrite Hsplit; unfold byte_of.
    + rewrite Hz, Z.add_0_r. rewrite (Z.mod_small (leval r)) by lia. reflexivity.
    + rewrite IH; [reflexivity|exact Hr|].
      unfold max64 in *. lia.
Qed.

Lemma ip_add_nonneg a o :
  ip_ok a -> 0 <= o <= max64 - 255 -> ipval (ip_add a o) = (ipval a + o) mod space (length a).
Proof.
  intros Ha Ho. rewrite !ipval_leval. unfold ip_add. rewrite rev_involutive.
  rewrite ip_add_rev_nonneg; [|apply (proj1 (ip_ok_rev _)); exact Ha|exact Ho].
  unfold space. rewrite rev_length. reflexivity.
Qed.

(** position j (counted from the least significant byte, 1-based) goes wrong *)
Definition bad_le (l : list Z) (o : Z) (j : nat) : Prop :=
  leval (firstn j l) + o < 0 /\ ((leval (firstn j l) + o) / 256 ^ Z.of_nat (j - 1)) mod 256 = 0.

Lemma ip_add_rev_low l o : l <> [] -> Forall (fun b => 0 <= b < 256) l -> min64 + 512 <= o <= max64 - 255 ->
  leval (ip_add_rev l o) mod 256 = (leval l + o) mod 256.
Proof.
  destruct l as [|b r]; [congruence|]. intros _ H Ho. inversion H as [|? ? Hb Hr]; subst.
  cbn [ip_add_rev leval].
  rewrite (wrap64_id (o + b)) by (unfold in64, min64, max64 in *; lia).
  unfold byte_of.
  assert (E : (b + 256 * leval r + o) mod 256 = (o + b) mod 256).
  { replace (b + 256 * leval r + o) with ((o + b) + leval r * 256) by lia. apply Z.mod_add. lia. }
  rewrite E.
  destruct (Z.quot _ 256 =? 0); cbn [leval]; rewrite Z.add_mod, Z.mod_mod, (Z.mul_comm 256), Z.mod_mul, Z.add_0_r, Z.mod_mod by lia; reflexivity.
Qed.

Lemma quot_neg t : t < 0 -> t mod 256 <> 0 -> Z.quot (t - 256) 256 = t / 256.
Proof.
  intros H Hm. rewrite <- (Z.opp_involutive (t - 256)), Z.quot_opp_l by lia.
  rewrite Z.quot_div_nonneg by lia. lia.
Qed.
Lemma quot_neg0 t : t < 0 -> t mod 256 = 0 -> Z.quot (t - 256) 256 = t / 256 - 1.
Proof.
  intros H Hm. rewrite <- (Z.opp_involutive (t - 256)), Z.quot_opp_l by lia.
  rewrite Z.quot_div_nonneg by lia. lia.
Qed.

Lemma bad_shift b r o j : (1 <= j)%nat -> 0 <= b < 256 ->
  (bad_le (b :: r) o (S j) <-> bad_le r ((o + b) / 256) j).
Proof.
  intros Hj Hb. unfold bad_le. cbn [firstn leval].
  replace (S j - 1)%nat with (S (j - 1)) by lia.
  rewrite Nat2Z.inj_succ, Z.pow_succ_r by lia.
  set (y := leval (firstn j r)).
  pose proof (pow256_pos (j - 1)) as Hp.
  assert (E : (b + 256 * y + o) / (256 * 256 ^ Z.of_nat (j - 1)) = (y + (o + b) / 256) / 256 ^ Z.of_nat (j - 1)).
  { rewrite <- Z.div_div by lia. f_equal.
    replace (b + 256 * y + o) with ((o + b) + y * 256) by lia.
    rewrite Z.div_add by lia. lia. }
  rewrite E. split; intros [H1 H2]; split; try exact H2; lia.
Qed.

Lemma ip_add_rev_neg l o :
  Forall (fun b => 0 <= b < 256) l -> min64 + 512 <= o <= max64 - 255 ->
  (leval (ip_add_rev l o) = (leval l + o) mod 256 ^ Z.of_nat (length l)
   <-> forall j, (1 <= j < length l)%nat -> ~ bad_le l o j).
Proof.
  revert o. induction l as [|b r IH]; intros o H Ho.
  - cbn [ip_add_rev leval length]. change (Z.of_nat 0) with 0. rewrite Z.pow_0_r, Z.mod_1_r.
    split; [intros _ j Hj; lia|reflexivity].
  - destruct (Z.le_gt_cases 0 o) as [Hpos|Hneg].
    { split.
      - intros _ j Hj [Hb _].
        assert (Hf : Forall (fun b => 0 <= b < 256) (firstn j (b :: r))).
        { rewrite <- (firstn_skipn j (b :: r)) in H. apply Forall_app in H. tauto. }
        apply leval_range in Hf. lia.
      - intros _. apply ip_add_rev_nonneg; [exact H|lia]. }
    inversion H as [|? ? Hb Hr]; subst. cbn [ip_add_rev].
    rewrite (wrap64_id (o + b)) by (unfold in64, min64, max64 in *; lia).
    pose proof (leval_range r Hr) as Hrr.
    cbn [length]. rewrite Nat2Z.inj_succ, Z.pow_succ_r by lia.
    pose proof (pow256_pos (length r)) as Hp.
    assert (Hsplit : (leval (b :: r) + o) mod (256 * 256 ^ Z.of_nat (length r))
                     = (o + b) mod 256 + 256 * ((leval r + (o + b) / 256) mod 256 ^ Z.of_nat (length r))).
    { cbn [leval]. rewrite Z.rem_mul_r by lia.
      replace (b + 256 * leval r + o) with ((o + b) + leval r * 256) by lia.
      rewrite Z.mod_add, Z.div_add by lia. f_equal. f_equal. f_equal. lia. }
    rewrite Hsplit.
    destruct (Z.ltb_spec (o + b) 0) as [Hlt|Hge].
    + rewrite (wrap64_id (o + b - 256)) by (unfold in64, min64, max64 in *; lia).
      destruct (Z.eq_dec ((o + b) mod 256) 0) as [Hm|Hm].
      * (* the faulty carry *)
        rewrite (quot_neg0 _ Hlt Hm).
        destruct (Z.eqb_spec ((o + b) / 256 - 1) 0) as [Hz|_]; [lia|].
        cbn [leval]. unfold byte_of. rewrite Hm. rewrite !Z.add_0_l.
        destruct r as [|c s].
        { cbn [length ip_add_rev leval]. change (Z.of_nat 0) with 0. rewrite Z.pow_0_r, Z.mod_1_r.
          split; [intros _ j Hj; lia|reflexivity]. }
        split.
        -- intro He. exfalso.
           assert (He' : leval (ip_add_rev (c :: s) ((o + b) / 256 - 1))
                         = (leval (c :: s) + (o + b) / 256) mod 256 ^ Z.of_nat (length (c :: s))) by lia.
           assert (Hlow : leval (ip_add_rev (c :: s) ((o + b) / 256 - 1)) mod 256
                          = (leval (c :: s) + ((o + b) / 256 - 1)) mod 256).
           { apply ip_add_rev_low; [discriminate|exact Hr|unfold min64, max64 in *; lia]. }
           rewrite He' in Hlow.
           cbn [length] in Hlow. rewrite Nat2Z.inj_succ, Z.pow_succ_r in Hlow by lia.
           pose proof (pow256_pos (length s)) as Hps.
           set (X := leval (c :: s)) in *.
           assert (Hmm : ((X + (o + b) / 256) mod (256 * 256 ^ Z.of_nat (length s))) mod 256
                         = (X + (o + b) / 256) mod 256).
           { rewrite Z.rem_mul_r by lia. rewrite Z.add_mod, (Z.mul_comm 256), Z.mod_mul, Z.add_0_r, !Z.mod_mod by lia. reflexivity. }
           rewrite Hmm in Hlow. clear - Hlow. lia.
        -- intro Hall. exfalso. apply (Hall 1%nat); [cbn [length]; lia|].
           unfold bad_le. cbn [firstn leval]. change (Z.of_nat (1 - 1)) with 0. rewrite Z.pow_0_r, Z.div_1_r.
           split; [lia|]. replace (b + 256 * 0 + o) with (o + b) by lia. exact Hm.
      * rewrite (quot_neg _ Hlt Hm).
        destruct (Z.eqb_spec ((o + b) / 256) 0) as [Hz|_]; [lia|].
        cbn [leval]. unfold byte_of.
        assert (IH' := IH ((o + b) / 256) Hr ltac:(unfold min64, max64 in *; lia)).
        split.
        -- intros He j Hj.
           assert (He' : leval (ip_add_rev r ((o + b) / 256)) = (leval r + (o + b) / 256) mod 256 ^ Z.of_nat (length r)) by lia.
           destruct j as [|[|j]]; [lia| |].
           ++ unfold bad_le. cbn [firstn leval]. change (Z.of_nat (1 - 1)) with 0. rewrite Z.pow_0_r, Z.div_1_r.
              replace (b + 256 * 0 + o) with (o + b) by lia. tauto.
           ++ rewrite (bad_shift b r o (S j)) by lia. apply IH'; [exact He'|cbn [length] in Hj; lia].
        -- intro Hall. f_equal. f_equal. apply IH'. intros j Hj Hbad.
           apply (Hall (S j)); [cbn [length]; lia|]. rewrite (bad_shift b r o j) by lia. exact Hbad.
    + (* the borrow stops here: o + b >= 0 with o < 0 means o + b < 256 *)
      assert (Hq : Z.quot (o + b) 256 = 0) by (rewrite Z.quot_div_nonneg by lia; lia).
      rewrite Hq. cbn [Z.eqb]. cbn [leval]. unfold byte_of.
      replace ((o + b) / 256) with 0 by lia. rewrite Z.add_0_r, (Z.mod_small (leval r)) by lia.
      split; [|reflexivity]. intros _ j Hj [Hbad _].
      destruct j as [|j]; [lia|]. cbn [firstn leval] in Hbad.
      assert (Hf : Forall (fun b => 0 <= b < 256) (firstn j r)).
      { rewrite <- (firstn_skipn j r) in Hr. apply Forall_app in Hr. tauto. }
      apply leval_range in Hf. lia.
Qed.

Lemma leval_firstn l j : Forall (fun b => 0 <= b < 256) l -> (j <= length l)%nat ->
  leval (firstn j l) = leval l mod 256 ^ Z.of_nat j.
Proof.
  intros H Hj. pose proof (firstn_skipn j l) as E.
  assert (Hl : length (firstn j l) = j) by (apply firstn_length_le; exact Hj).
  rewrite <- E in H. apply Forall_app in H. destruct H as [Hf _].
  apply leval_range in Hf. rewrite Hl in Hf.
  assert (leval l = leval (firstn j l) + 256 ^ Z.of_nat j * leval (skipn j l)).
  { rewrite <- E at 1. rewrite leval_app, Hl. reflexivity. }
  rewrite H, Z.mul_comm, Z.mod_add by (pose proof (pow256_pos j); lia).
  symmetry. apply Z.mod_small. exact Hf.
Qed.

Lemma ip_add_exact a o :
  ip_ok a -> min64 + 512 <= o <= max64 - 255 ->
  (ipval (ip_add a o) = (ipval a + o) mod space (length a)
   <-> forall j, (1 <= j < length a)%nat ->
         ~ (ipval a mod space j + o < 0 /\
            ((ipval a mod space j + o) / space (j - 1)) mod 256 = 0)).
Proof.
  intros Ha Ho. rewrite !ipval_leval. unfold ip_add. rewrite rev_involutive.
  apply (proj1 (ip_ok_rev _)) in Ha. pose proof (ip_add_rev_neg (rev a) o Ha Ho) as Hx.
  rewrite rev_length in Hx. unfold space. rewrite Hx.
  split; intros Hall j Hj Hbad; apply (Hall j Hj); unfold bad_le in *;
    rewrite (leval_firstn (rev a) j) in * by (rewrite ?rev_length; auto; lia); exact Hbad.
Qed.

(** ** DiffIP *)
Lemma diff_loop_spec a b d :
  length a = length b ->
  exists k, diff_ip_loop a b d = Some k /\
    (k - (d * 256 ^ Z.of_nat (length a) + leval (rev a) - leval (rev b))) mod two64 = 0.
Proof.
  revert b d. induction a as [|x a' IH]; intros [|y b'] d Hl; try discriminate.
  - exists d. split; [reflexivity|]. cbn [length rev leval]. change (Z.of_nat 0) with 0.
    rewrite Z.pow_0_r. replace (d - (d * 1 + 0 - 0)) with 0 by lia. reflexivity.
  - cbn [length] in Hl. cbn [diff_ip_loop].
    destruct (IH b' (wrap64 (wrap64 (d * 256) + (x - y))) ltac:(lia)) as [k [Hk Hm]].
    exists k. split; [exact Hk|].
    cbn [length rev]. rewrite !leval_app, !rev_length. cbn [leval].
    rewrite Nat2Z.inj_succ, Z.pow_succ_r by lia.
    replace (length b') with (length a') by lia.
    set (P := 256 ^ Z.of_nat (length a')) in *.
    pose proof (wrap64_mod (d * 256)) as W1.
    pose proof (wrap64_mod (wrap64 (d * 256) + (x - y))) as W2.
    set (w1 := wrap64 (d * 256)) in *. set (w2 := wrap64 (w1 + (x - y))) in *.
    unfold two64 in *.
    apply Z.mod_divide in Hm; [|lia]. apply Z.mod_divide in W1; [|lia]. apply Z.mod_divide in W2; [|lia].
    destruct Hm as [m Hm], W1 as [q1 W1], W2 as [q2 W2].
    apply Z.mod_divide; [lia|]. exists (m + q2 * P + q1 * P).
    clearbody w1 w2 P. clear -Hm W1 W2.
    assert (w2 = w1 + (x - y) + q2 * 18446744073709551616) by lia.
    assert (w1 = d * 256 + q1 * 18446744073709551616) by lia.
    subst w2. subst w1. nia.
Qed.

Lemma diff_loop_range a b d k :
  length a = length b -> in64 d -> diff_ip_loop a b d = Some k -> in64 k.
Proof.
  revert b d. induction a as [|x a' IH]; intros [|y b'] d Hl Hd; cbn [diff_ip_loop]; try discriminate.
  - intro E. inversion E; subst. exact Hd.
  - intro E. eapply IH in E; [exact E|cbn [length] in Hl; lia|apply wrap64_range].
Qed.

Lemma diff_ip_spec a b : length a = length b -> diff_ip a b = Some (wrap64 (ipval a - ipval b)).
Proof.
  intro Hl. unfold diff_ip.
  destruct (diff_loop_spec a b 0 Hl) as [k [Hk Hm]]. rewrite Hk. f_equal.
  rewrite !ipval_leval.
  assert (in64 k) as Hr. { eapply diff_loop_range in Hk; [exact Hk|exact Hl|unfold in64, min64, max64; lia]. }
  rewrite <- (wrap64_id k Hr). apply wrap64_eq.
  rewrite Z.mul_0_l, Z.add_0_l in Hm. exact Hm.
Qed.

(** ** masks *)
Lemma byte_mask_sweep :
  forallb (fun n => forallb (fun v =>
      let m := 255 - 255 / 2 ^ n in
      (Z.land v m =? v / 2 ^ (8 - n) * 2 ^ (8 - n)) &&
      (Z.lor (Z.land v m) (Z.lxor m 255) =? v / 2 ^ (8 - n) * 2 ^ (8 - n) + (2 ^ (8 - n) - 1)))
    (map Z.of_nat (seq 0 256))) (map Z.of_nat (seq 0 9)) = true.
Proof. vm_compute. reflexivity. Qed.

Lemma byte_mask n v : 0 <= n <= 8 -> 0 <= v < 256 ->
  Z.land v (255 - 255 / 2 ^ n) = v / 2 ^ (8 - n) * 2 ^ (8 - n) /\
  Z.lor (Z.land v (255 - 255 / 2 ^ n)) (Z.lxor (255 - 255 / 2 ^ n) 255)
    = v / 2 ^ (8 - n) * 2 ^ (8 - n) + (2 ^ (8 - n) - 1).
Proof.
  intros Hn Hv. pose proof byte_mask_sweep as S.
  rewrite forallb_forall in S. specialize (S n).
  assert (I1 : In n (map Z.of_nat (seq 0 9))).
  { apply in_map_iff. exists (Z.to_nat n). split; [lia|apply in_seq; lia]. }
  specialize (S I1). rewrite forallb_forall in S. specialize (S v).
  assert (I2 : In v (map Z.of_nat (seq 0 256))).
  { apply in_map_iff. exists (Z.to_nat v). split; [lia|apply in_seq; lia]. }
  specialize (S I2). cbv zeta in S. apply andb_true_iff in S. destruct S as [S1 S2].
  apply Z.eqb_eq in S1, S2. split; assumption.
Qed.

Lemma mask_bytes_length ones len : length (mask_bytes ones len) = len.
Proof.
  revert ones. induction len as [|k IH]; intro ones; cbn [mask_bytes]; [reflexivity|].
  destruct (Nat.leb 8 ones); cbn [length]; rewrite IH; reflexivity.
Qed.

Lemma mask255 : 255 = 255 - 255 / 2 ^ 8. Proof. reflexivity. Qed.

(** joint specification of masking, in big-endian recursion on the address *)
Lemma bev_cons x a : ipval (x :: a) = x * 256 ^ Z.of_nat (length a) + ipval a.
Proof. rewrite !ipval_leval. cbn [rev]. rewrite leval_app, rev_length. cbn [leval]. lia. Qed.

Definition maxl (a m : list Z) : list Z :=
  map (fun p => Z.lor (fst p) (Z.lxor (snd p) 255)) (combine (ip_mask a m) m).

Lemma ip_mask_length a m : length a = length m -> length (ip_mask a m) = length a.
Proof. intro H. unfold ip_mask. rewrite map_length, combine_length. lia. Qed.

Lemma pow256_2 n : 256 ^ Z.of_nat n = 2 ^ (8 * Z.of_nat n).
Proof. change 256 with (2 ^ 8). rewrite <- Z.pow_mul_r by lia. reflexivity. Qed.

Lemma mask_spec a ones :
  ip_ok a -> (ones <= 8 * length a)%nat ->
  let h := 8 * Z.of_nat (length a) - Z.of_nat ones in
  let m := mask_bytes ones (length a) in
  ipval (ip_mask a m) = ipval a / 2 ^ h * 2 ^ h /\
  ipval (maxl a m) = ipval a / 2 ^ h * 2 ^ h + (2 ^ h - 1) /\
  ip_ok (ip_mask a m) /\ ip_ok (maxl a m).
Proof.
  revert ones. induction a as [|x a IH]; intros ones Ha Ho h m.
  - cbn [length] in *. subst h m. assert (ones = 0%nat) by lia. subst ones.
    cbn. repeat split; constructor.
  - inversion Ha as [|? ? Hx Ha']; subst.
    subst m. cbn [length mask_bytes].
    destruct (Nat.leb_spec 8 ones) as [H8|H8].
    + (* full byte *)
      cbn [length] in Ho.
      specialize (IH (ones - 8)%nat Ha' ltac:(lia)). cbv zeta in IH.
      assert (Eh : 8 * Z.of_nat (length a) - Z.of_nat (ones - 8) = h) by (subst h; cbn [length]; lia).
      rewrite Eh in IH. destruct IH as [I1 [I2 [I3 I4]]].
      set (mm := mask_bytes (ones - 8) (length a)) in *.
      pose proof (byte_mask 8 x ltac:(lia) Hx) as [B1 B2]. rewrite <- mask255 in B1, B2.
      change (8 - 8) with 0 in B1, B2. rewrite Z.pow_0_r, Z.div_1_r, Z.mul_1_r in B1, B2.
      unfold maxl, ip_mask in *. cbn [combine map fst snd].
      rewrite B2, B1, !bev_cons.
      assert (Lm : length mm = length a) by apply mask_bytes_length.
      rewrite !map_length, !combine_length, !map_length, !combine_length, Lm, !Nat.min_id.
      rewrite I1, I2.
      assert (Hh : 0 <= h <= 8 * Z.of_nat (length a)) by lia.
      assert (Ep : 256 ^ Z.of_nat (length a) = 2 ^ (8 * Z.of_nat (length a) - h) * 2 ^ h).
      { rewrite pow256_2, <- Z.pow_add_r by lia. f_equal. lia. }
      assert (E : (x * 256 ^ Z.of_nat (length a) + ipval a) / 2 ^ h
                  = x * 2 ^ (8 * Z.of_nat (length a) - h) + ipval a / 2 ^ h).
      { rewrite Ep. rewrite Z.mul_assoc, Z.add_comm, Z.div_add by (apply Z.pow_nonzero; lia). lia. }
      rewrite E, Ep. repeat split.
      * ring.
      * ring.
      * constructor; [lia|exact I3].
      * constructor; [lia|exact I4].
    + (* partial byte *)
      cbn [length] in Ho.
      specialize (IH 0%nat Ha' ltac:(lia)). cbv zeta in IH.
      rewrite Z.sub_0_r in IH. destruct IH as [I1 [I2 [I3 I4]]].
      set (mm := mask_bytes 0 (length a)) in *.
      pose proof (byte_mask (Z.of_nat ones) x ltac:(lia) Hx) as [B1 B2].
      unfold maxl, ip_mask in *. cbn [combine map fst snd].
      rewrite B2, B1, !bev_cons.
      assert (Lm : length mm = length a) by apply mask_bytes_length.
      rewrite !map_length, !combine_length, !map_length, !combine_length, Lm, !Nat.min_id.
      rewrite I1, I2. rewrite <- pow256_2.
      pose proof (ipval_range a Ha') as Hr. unfold space in Hr.
      rewrite (Z.div_small (ipval a)) by exact Hr.
      set (k := 8 - Z.of_nat ones) in *.
      assert (Eh : h = k + 8 * Z.of_nat (length a)) by (subst h k; cbn [length]; lia).
      assert (Hk : 0 <= k <= 8) by (subst k; lia).
      assert (Ep : 2 ^ h = 2 ^ k * 256 ^ Z.of_nat (length a)).
      { rewrite Eh, Z.pow_add_r, <- pow256_2 by lia. reflexivity. }
      assert (Hkp : 0 < 2 ^ k) by (apply Z.pow_pos_nonneg; lia).
      assert (E : (x * 256 ^ Z.of_nat (length a) + ipval a) / 2 ^ h = x / 2 ^ k).
      { rewrite Ep, (Z.mul_comm (2 ^ k)), <- Z.div_div by lia.
        f_equal. rewrite Z.add_comm, Z.div_add by lia. rewrite Z.div_small by exact Hr. lia. }
      rewrite E, Ep.
      assert (Hq : 0 <= x / 2 ^ k * 2 ^ k <= x).
      { pose proof (Z.mul_div_le x (2 ^ k) Hkp). pose proof (Z.div_pos x (2 ^ k)). nia. }
      assert (Hb : x / 2 ^ k * 2 ^ k + (2 ^ k - 1) < 256).
      { assert (E256 : 256 = 2 ^ (8 - k) * 2 ^ k) by (rewrite <- Z.pow_add_r by lia; replace (8 - k + k) with 8 by lia; reflexivity).
        assert (x / 2 ^ k < 2 ^ (8 - k)) by (apply Z.div_lt_upper_bound; lia).
        nia. }
      repeat split.
      * ring.
      * ring.
      * constructor; [lia|exact I3].
      * constructor; [lia|exact I4].
Qed.

Lemma min_ip_spec c : cidr_ok c ->
  ipval (min_ip c) = ipval (c_addr c) / 2 ^ hostbits c * 2 ^ hostbits c
  /\ ip_ok (min_ip c) /\ length (min_ip c) = c_len c.
Proof.
  intros [Ha Ho]. unfold min_ip, c_mask, hostbits.
  destruct (mask_spec (c_addr c) (c_ones c) Ha Ho) as [H1 [_ [H2 _]]].
  repeat split; auto. rewrite ip_mask_length; [reflexivity|].
  rewrite mask_bytes_length. reflexivity.
Qed.

Lemma max_ip_spec c : cidr_ok c ->
  ipval (max_ip c) = ipval (min_ip c) + (2 ^ hostbits c - 1)
  /\ ip_ok (max_ip c) /\ length (max_ip c) = c_len c.
Proof.
  intros [Ha Ho].
  destruct (mask_spec (c_addr c) (c_ones c) Ha Ho) as [H1 [H2 [_ H3]]].
  unfold max_ip, min_ip, c_mask, hostbits, c_len.
  repeat split; auto; [rewrite H1; exact H2|].
  unfold maxl, ip_mask. rewrite map_length, combine_length, map_length, combine_length, mask_bytes_length.
  unfold c_len. lia.
Qed.

(** membership: same masked value *)
Lemma land_mask_eq_iff a b m :
  length a = length b -> length a = length m ->
  (forallb (fun p => Z.eqb (Z.land (fst (fst p)) (snd p)) (Z.land (snd (fst p)) (snd p)))
          (combine (combine a b) m) = true <-> ip_mask a m = ip_mask b m).
Proof.
  revert b m. induction a as [|x a IH]; intros [|y b] [|z m] H1 H2; try discriminate; [cbn; tauto|].
  cbn [combine forallb fst snd ip_mask map]. rewrite andb_true_iff, Z.eqb_eq.
  cbn [length] in *. unfold ip_mask in *. rewrite IH by lia.
  split; [intros [E1 E2]; rewrite E1; f_equal; exact E2|].
  intro E. inversion E. auto.
Qed.

Lemma mask_idem a m : length a = length m -> ip_mask (ip_mask a m) m = ip_mask a m.
Proof.
  revert m. induction a as [|x a IH]; intros [|z m] H; try discriminate; [reflexivity|].
  cbn [length] in H. unfold ip_mask in *. cbn [combine map fst snd].
  rewrite <- Z.land_assoc, Z.land_diag. f_equal. apply IH. lia.
Qed.

Lemma contains_spec c x : cidr_ok c -> ip_ok x -> length x = c_len c ->
  (cidr_contains c x = true <-> ipval (min_ip c) <= ipval x <= ipval (max_ip c)).
Proof.
  intros Hc Hx Hl. unfold cidr_contains. rewrite Hl, Nat.eqb_refl, andb_true_l.
  pose proof Hc as [Ha Ho].
  destruct (min_ip_spec c Hc) as [M1 [M2 M3]]. destruct (max_ip_spec c Hc) as [X1 [X2 X3]].
  assert (Lm : length (c_mask c) = c_len c) by apply mask_bytes_length.
  rewrite land_mask_eq_iff by lia.
  unfold min_ip at 1. rewrite mask_idem by (unfold c_len in *; lia).
  destruct (mask_spec x (c_ones c) Hx ltac:(lia)) as [E1 [_ [E2 _]]]. rewrite Hl in E1, E2.
  fold (c_mask c) in E1, E2. fold (hostbits c) in E1.
  assert (Hp : 0 < 2 ^ hostbits c) by (apply Z.pow_pos_nonneg; unfold hostbits; lia).
  rewrite X1, M1.
  set (h := 2 ^ hostbits c) in *.
  split.
  - intro E. apply (f_equal ipval) in E. rewrite E1 in E.
    assert (Hcc : ipval (ip_mask (c_addr c) (c_mask c)) = ipval (c_addr c) / h * h) by exact M1.
    rewrite Hcc in E. pose proof (Z.div_mod (ipval x) h ltac:(lia)). pose proof (Z.mod_pos_bound (ipval x) h Hp). lia.
  - intro Hr. apply ipval_inj.
    + unfold ip_mask. rewrite !map_length, !combine_length. unfold c_len in *. lia.
    + exact M2.
    + exact E2.
    + rewrite E1. change (ip_mask (c_addr c) (c_mask c)) with (min_ip c). rewrite M1.
      f_equal.
      set (q := ipval (c_addr c) / h) in *.
      assert (ipval x / h = q); [|lia].
      symmetry. apply (Z.div_unique (ipval x) h q (ipval x - q * h)); lia.
Qed.

(** ** CIDR division *)
Lemma div_loop_spec p ones round :
  exists k : Z, let '(o, r) := div_loop p ones round in
   o = ones + k /\ 0 <= k /\ 2 ^ k <= Zpos p < 2 ^ (k + 1) /\
   (r = true <-> round = true \/ Zpos p <> 2 ^ k).
Proof.
  revert ones round. induction p as [p IH|p IH|]; intros ones round; cbn [div_loop].
  - destruct (IH (ones + 1) true) as [k Hk]. exists (k + 1).
    destruct (div_loop p (ones + 1) true) as [o r]. destruct Hk as [H1 [H2 [H3 H4]]].
    assert (Q1 : 2 ^ (k + 1) = 2 * 2 ^ k) by (rewrite Z.pow_add_r by lia; change (2 ^ 1) with 2; lia).
    assert (Q2 : 2 ^ (k + 1 + 1) = 4 * 2 ^ k) by (rewrite Z.pow_add_r by lia; change (2 ^ 1) with 2; lia).
    rewrite Q2, Q1 in *. set (P := 2 ^ k) in *. clearbody P. clear Q1 Q2 IH.
    rewrite Pos2Z.inj_xI. split; [lia|]. split; [lia|]. split; [lia|].
    split; intros _; [right; lia|apply H4; left; reflexivity].
  - destruct (IH (ones + 1) round) as [k Hk]. exists (k + 1).
    destruct (div_loop p (ones + 1) round) as [o r]. destruct Hk as [H1 [H2 [H3 H4]]].
    assert (Q1 : 2 ^ (k + 1) = 2 * 2 ^ k) by (rewrite Z.pow_add_r by lia; change (2 ^ 1) with 2; lia).
    assert (Q2 : 2 ^ (k + 1 + 1) = 4 * 2 ^ k) by (rewrite Z.pow_add_r by lia; change (2 ^ 1) with 2; lia).
    rewrite Q2, Q1 in *. set (P := 2 ^ k) in *. clearbody P. clear Q1 Q2 IH.
    rewrite Pos2Z.inj_xO. split; [lia|]. split; [lia|]. split; [lia|]. split.
    + intro Hr. apply H4 in Hr. destruct Hr as [Hr|Hr]; [left; exact Hr|right; lia].
    + intros [Hr|Hr]; apply H4; [left; exact Hr|right; lia].
  - exists 0. rewrite Z.pow_0_r. change (2 ^ (0 + 1)) with 2. split; [lia|]. split; [lia|]. split; [lia|]. split.
    + intro Hr. left. exact Hr.
    + intros [Hr|Hr]; [exact Hr|congruence].
Qed.

Lemma cidr_div_ones c b d : cidr_div c b = Some d ->
  0 < b /\ Z.of_nat (c_ones d) = Z.of_nat (c_ones c) + Z.log2_up b /\ c_addr d = min_ip c.
Proof.
  unfold cidr_div. destruct b as [|p|p]; try discriminate.
  destruct (div_loop_spec p (Z.of_nat (c_ones c)) false) as [k Hk].
  destruct (div_loop p (Z.of_nat (c_ones c)) false) as [o r]. destruct Hk as [H1 [H2 [H3 H4]]].
  destruct (32 <? (if r then o + 1 else o)) eqn:E; [discriminate|].
  intro H. inversion H; subst d; clear H. cbn [c_ones c_addr].
  split; [lia|]. split; [|reflexivity].
  destruct r.
  - assert (Hn : Z.pos p <> 2 ^ k) by (destruct H4 as [H4 _]; destruct (H4 eq_refl); [discriminate|assumption]).
    assert (Z.log2_up (Z.pos p) = k + 1); [|lia].
    apply Z.log2_up_unique; [lia|]. replace (Z.pred (k + 1)) with k by lia. lia.
  - assert (Hn : Z.pos p = 2 ^ k).
    { destruct (Z.eq_dec (Z.pos p) (2 ^ k)) as [|Hne]; [assumption|].
      destruct H4 as [_ H4]. discriminate H4. right. exact Hne. }
    rewrite Hn, Z.log2_up_pow2 by lia. lia.
Qed.

Lemma cidr_div_None c b : cidr_div c b = None <-> b < 1 \/ 32 < Z.of_nat (c_ones c) + Z.log2_up b.
Proof.
  unfold cidr_div. destruct b as [|p|p].
  - split; [intros; left; lia|reflexivity].
  - destruct (div_loop_spec p (Z.of_nat (c_ones c)) false) as [k Hk].
    destruct (div_loop p (Z.of_nat (c_ones c)) false) as [o r]. destruct Hk as [H1 [H2 [H3 H4]]].
    assert (Hlog : (if r then o + 1 else o) = Z.of_nat (c_ones c) + Z.log2_up (Z.pos p)).
    { destruct r.
      - assert (Hn : Z.pos p <> 2 ^ k) by (destruct H4 as [H4 _]; destruct (H4 eq_refl); [discriminate|assumption]).
        assert (Z.log2_up (Z.pos p) = k + 1); [|lia].
        apply Z.log2_up_unique; [lia|]. replace (Z.pred (k + 1)) with k by lia. lia.
      - assert (Hn : Z.pos p = 2 ^ k).
        { destruct (Z.eq_dec (Z.pos p) (2 ^ k)) as [|Hne]; [assumption|].
          destruct H4 as [_ H4]. discriminate H4. right. exact Hne. }
        rewrite Hn, Z.log2_up_pow2 by lia. lia. }
    rewrite Hlog. destruct (Z.ltb_spec 32 (Z.of_nat (c_ones c) + Z.log2_up (Z.pos p))); split; intro Hx; try lia; try discriminate; reflexivity.
  - split; [intros; left; lia|reflexivity].
Qed.

(** ** size and ranges *)
Lemma size32_v4 ones : (ones <= 32)%nat -> size32 ones = 2 ^ (32 - Z.of_nat ones).
Proof.
  intro H. unfold size32. rewrite (Z.mod_small (32 - Z.of_nat ones)) by lia.
  destruct (Z.ltb_spec (32 - Z.of_nat ones) 64); [|lia].
  apply wrap64_id. unfold in64, min64, max64.
  assert (2 ^ 0 <= 2 ^ (32 - Z.of_nat ones)) by (apply Z.pow_le_mono_r; lia).
  assert (2 ^ (32 - Z.of_nat ones) <= 2 ^ 32) by (apply Z.pow_le_mono_r; lia).
  change (2 ^ 0) with 1 in *. change (2 ^ 32) with 4294967296 in *. lia.
Qed.
