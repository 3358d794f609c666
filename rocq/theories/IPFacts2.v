(** Proofs about IP.v, part 2: sizes, multiplication, ipset, static_ips. *)
From Coq Require Import Lia.
From Verif Require Import Core CoreFacts IP IPSpec IPFacts.

Lemma ip_add_rev_zero l : Forall (fun b => 0 <= b < 256) l -> ip_add_rev l 0 = l.
Proof.
  destruct l as [|b r]; intro H; [reflexivity|]. inversion H as [|? ? Hb Hr]; subst.
  cbn [ip_add_rev]. rewrite Z.add_0_l. rewrite wrap64_id by (unfold in64, min64, max64; lia).
  destruct (Z.ltb_spec b 0); [lia|]. rewrite Z.quot_small by lia. rewrite Z.eqb_refl.
  unfold byte_of. rewrite Z.mod_small by lia. reflexivity.
Qed.

Lemma hostbits_nonneg c : cidr_ok c -> 0 <= hostbits c.
Proof. intros [_ H]. unfold hostbits. lia. Qed.

Lemma num_ip_v4 c : cidr_ok c -> c_len c = 4%nat -> num_ip c = ipval (max_ip c) - ipval (min_ip c) + 1.
Proof.
  intros Hc H4. destruct (max_ip_spec c Hc) as [E _]. rewrite E. unfold num_ip.
  destruct Hc as [Ha Ho]. rewrite H4 in Ho. rewrite size32_v4 by lia. unfold hostbits. rewrite H4.
  change (8 * Z.of_nat 4) with 32. lia.
Qed.

Lemma min_ip_aligned c : cidr_ok c -> ipval (min_ip c) mod 2 ^ hostbits c = 0.
Proof.
  intro Hc. destruct (min_ip_spec c Hc) as [E _]. rewrite E. apply Z.mod_mul.
  apply Z.pow_nonzero; [lia|apply hostbits_nonneg; exact Hc].
Qed.

Lemma cidr_mul_spec c b :
  cidr_ok c -> c_len c = 4%nat -> 0 <= b -> 2 ^ hostbits c * b <= max64 - 255 ->
  ipval (c_addr (cidr_mul c b)) = (ipval (min_ip c) + 2 ^ hostbits c * b) mod 2 ^ 32
  /\ c_ones (cidr_mul c b) = c_ones c /\ c_len (cidr_mul c b) = 4%nat /\ cidr_ok (cidr_mul c b).
Proof.
  intros Hc H4 Hb Hm.
  destruct (min_ip_spec c Hc) as [_ [Mo Ml]].
  pose proof Hc as [Ha Ho]. rewrite H4 in Ho.
  assert (Es : size32 (c_ones c) = 2 ^ hostbits c).
  { rewrite size32_v4 by lia. unfold hostbits. rewrite H4. reflexivity. }
  assert (Hp : 0 < 2 ^ hostbits c) by (apply Z.pow_pos_nonneg; [lia|apply hostbits_nonneg; exact Hc]).
  unfold cidr_mul. cbn [c_addr c_ones]. rewrite Es.
  rewrite wrap64_id by (unfold in64, min64, max64 in *; nia).
  repeat split.
  - rewrite ip_add_nonneg by (auto; nia). rewrite Ml, H4. reflexivity.
  - unfold c_len at 1. cbn [c_addr]. rewrite ip_add_length, Ml. exact H4.
  - apply ip_add_ok. exact Mo.
  - unfold c_len. cbn [c_addr c_ones]. rewrite ip_add_length. rewrite Ml, H4. lia.
Qed.

(** ** ipset *)
Lemma zseq_length n : 0 <= n -> Z.of_nat (length (zseq n)) = n.
Proof. intro H. unfold zseq. rewrite map_length, seq_length. lia. Qed.

Lemma nth_zseq n (f : Z -> Z) i : 0 <= i < n -> nth_error (map f (zseq n)) (Z.to_nat i) = Some (f i).
Proof.
  intro H. apply map_nth_error. unfold zseq.
  replace i with (Z.of_nat (Z.to_nat i)) at 2 by lia. apply map_nth_error.
  rewrite nth_error_nth' with (d := O) by (rewrite seq_length; lia).
  rewrite seq_nth by lia. f_equal.
Qed.

Lemma range_size_len r : range_ok r -> range_size r = Z.of_nat (length (range_vals r)) /\ 0 < range_size r.
Proof.
  destruct r as [s e|s|c]; cbn [range_ok range_size range_vals].
  - intros [Hs [He [Hl [Hle Hlt]]]]. rewrite diff_ip_spec by congruence.
    rewrite map_length, zseq_length by lia.
    rewrite (wrap64_id (ipval e - ipval s)) by (unfold in64, min64, max64 in *; lia).
    rewrite wrap64_id by (unfold in64, min64, max64 in *; lia). lia.
  - intros _. cbn. lia.
  - intros [Hc H4]. pose proof (hostbits_nonneg c Hc) as Hh.
    assert (0 < 2 ^ hostbits c) by (apply Z.pow_pos_nonneg; lia).
    rewrite map_length, zseq_length by lia. pose proof Hc as [Ha Ho]. rewrite H4 in Ho.
    rewrite size32_v4 by lia. unfold hostbits in *. rewrite H4 in *. change (8 * Z.of_nat 4) with 32 in *. lia.
Qed.

Lemma range_ip_spec r i : range_ok r -> 0 <= i < range_size r -> i <= max64 - 255 ->
  exists a, range_ip r i = Some a /\ nth_error (range_vals r) (Z.to_nat i) = Some (ipval a).
Proof.
  intros Hr Hi Hm. unfold range_ip.
  destruct (Z.ltb_spec i 0); [lia|]. destruct (Z.leb_spec (range_size r) i); [lia|]. cbn [orb].
  pose proof (range_size_len r Hr) as [Hlen _].
  destruct r as [s e|s|c]; cbn [range_ok range_size range_vals] in *.
  - destruct Hr as [Hs [He [Hl [Hle Hlt]]]]. exists (ip_add s i). split; [reflexivity|].
    rewrite map_length, zseq_length in Hlen by lia.
    rewrite nth_zseq by lia. f_equal.
    rewrite ip_add_nonneg by (auto; lia). symmetry. apply Z.mod_small.
    pose proof (ipval_range s Hs). pose proof (ipval_range e He) as Re. rewrite <- Hl in Re.
    lia.
  - assert (i = 0) by lia. subst i. exists (ip_add s 0). split; [reflexivity|].
    cbn. unfold ip_add. rewrite ip_add_rev_zero by (apply (proj1 (ip_ok_rev _)); exact Hr).
    rewrite rev_involutive. reflexivity.
  - destruct Hr as [Hc H4]. exists (ip_add (min_ip c) i). split; [reflexivity|].
    rewrite map_length, zseq_length in Hlen
      by (pose proof (hostbits_nonneg c Hc); apply Z.lt_le_incl, Z.pow_pos_nonneg; lia).
    rewrite nth_zseq by lia. f_equal.
    destruct (min_ip_spec c Hc) as [M0 [Mo Ml]]. destruct (max_ip_spec c Hc) as [X [Xo Xl]].
    unfold net_lo. rewrite <- M0.
    rewrite ip_add_nonneg by (auto; lia). symmetry. apply Z.mod_small.
    pose proof (ipval_range _ Mo). pose proof (ipval_range _ Xo) as Re. rewrite Xl, <- Ml in Re. lia.
Qed.

Lemma total_cons r rs : total (r :: rs) = Z.of_nat (length (range_vals r)) + total rs.
Proof. unfold total, all_vals. cbn [map concat]. rewrite app_length. lia. Qed.

Lemma ipset_find_spec rs offset index :
  Forall range_ok rs -> 0 <= offset -> offset <= index -> in64 index -> offset + total rs <= max64 - 255 ->
  match nth_error (all_vals rs) (Z.to_nat (index - offset)) with
  | Some v => exists a, ipset_find rs offset index = Some (Some a) /\ ipval a = v
  | None => ipset_find rs offset index = None
  end.
Proof.
  revert offset. induction rs as [|r rs IH]; intros offset Hok Ho Hi H64 Ht.
  - cbn. destruct (Z.to_nat (index - offset)); reflexivity.
  - inversion Hok as [|? ? Hr Hrs]; subst. rewrite total_cons in Ht.
    pose proof (range_size_len r Hr) as [Hlen Hpos].
    assert (Htn : 0 <= total rs) by (unfold total; lia).
    cbn [ipset_find]. rewrite wrap64_id by (unfold in64, min64, max64 in *; lia).
    rewrite (wrap64_id (index - offset)) by (unfold in64, min64, max64 in *; lia).
    unfold all_vals. cbn [map concat].
    destruct (Z.ltb_spec index (offset + range_size r)) as [Hlt|Hge].
    + rewrite nth_error_app1 by lia.
      destruct (range_ip_spec r (index - offset) Hr ltac:(lia) ltac:(lia)) as [a [E1 E2]].
      rewrite E2. exists a. rewrite E1. split; reflexivity.
    + rewrite nth_error_app2 by lia.
      specialize (IH (offset + range_size r) Hrs ltac:(lia) ltac:(lia) H64 ltac:(lia)).
      replace (Z.to_nat (index - offset) - length (range_vals r))%nat
        with (Z.to_nat (index - (offset + range_size r))) by lia.
      exact IH.
Qed.

Lemma ipset_all_spec rs idx :
  Forall range_ok rs -> total rs <= max64 - 255 -> Forall (fun i => 0 <= i <= max64) idx ->
  (Forall (fun i => i < total rs) idx ->
     exists l, ipset_all rs idx = IPOk (map Some l) /\ selects (all_vals rs) idx (map ipval l)) /\
  (Exists (fun i => total rs <= i) idx -> ipset_all rs idx = IPErr).
Proof.
  intros Hok Ht Hidx. induction idx as [|i r IH].
  - split; [intros _; exists []; split; [reflexivity|constructor]|intro E; inversion E].
  - inversion Hidx as [|? ? Hi Hr]; subst. destruct (IH Hr) as [IH1 IH2]. clear IH.
    pose proof (ipset_find_spec rs 0 i Hok ltac:(lia) ltac:(lia) ltac:(unfold in64, min64, max64 in *; lia) ltac:(lia)) as F.
    rewrite Z.sub_0_r in F.
    destruct (nth_error (all_vals rs) (Z.to_nat i)) as [v|] eqn:En.
    + destruct F as [a [Fa Fv]]. cbn [ipset_all]. rewrite Fa. split.
      * intro Hall. inversion Hall as [|? ? H1 H2]; subst. destruct (IH1 H2) as [l [E1 E2]].
        rewrite E1. exists (a :: l). split; [reflexivity|]. constructor; [split; [lia|exact En]|exact E2].
      * intro Hex. inversion Hex as [? ? H1|? ? H1]; subst.
        -- exfalso. assert (nth_error (all_vals rs) (Z.to_nat i) <> None) by congruence.
           apply nth_error_Some in H. unfold total in H1. lia.
        -- rewrite (IH2 H1). reflexivity.
    + cbn [ipset_all]. rewrite F. split; [|reflexivity].
      intro Hall. inversion Hall as [|? ? H1 H2]; subst. apply nth_error_None in En. unfold total in H1. lia.
Qed.

Lemma selects_zseq_gen all n k :
  (k + n <= length all)%nat ->
  selects all (map Z.of_nat (seq k n)) (firstn n (skipn k all)).
Proof.
  revert k. induction n as [|n IH]; intros k H; cbn [seq map]; [constructor|].
  destruct (nth_error all k) as [v|] eqn:E; [|apply nth_error_None in E; lia].
  assert (Es : skipn k all = v :: skipn (S k) all).
  { clear - E. revert all E. induction k as [|k IH]; intros [|x all] E; try discriminate.
    - inversion E. reflexivity.
    - cbn [skipn]. apply IH. exact E. }
  rewrite Es. cbn [firstn]. constructor.
  - rewrite Nat2Z.id. split; [lia|exact E].
  - apply IH. lia.
Qed.

Lemma selects_fun all idx r1 r2 : selects all idx r1 -> selects all idx r2 -> r1 = r2.
Proof.
  intro H. revert r2. induction H as [|i v idx r1 [_ Hv] H IH]; intros r2 H2; inversion H2; subst; [reflexivity|].
  f_equal; [|apply IH; assumption]. destruct H3 as [_ H3]. congruence.
Qed.

Lemma ipset_first rs num :
  Forall range_ok rs -> total rs <= max64 - 255 -> 0 <= num <= max64 ->
  (num <= total rs ->
     exists l, ipset rs num None = IPOk (map Some l) /\ map ipval l = firstn (Z.to_nat num) (all_vals rs)) /\
  (total rs < num -> ipset rs num None = IPErr).
Proof.
  intros Hok Ht Hn. unfold ipset. destruct (Z.ltb_spec num 0); [lia|].
  assert (Hr : Forall (fun i => 0 <= i <= max64) (zseq num)).
  { apply Forall_forall. intros i Hi. unfold zseq in Hi. apply in_map_iff in Hi.
    destruct Hi as [k [E Hk]]. apply in_seq in Hk. lia. }
  destruct (ipset_all_spec rs (zseq num) Hok Ht Hr) as [H1 H2]. split.
  - intro Hle. destruct H1 as [l [E1 E2]].
    + apply Forall_forall. intros i Hi. unfold zseq in Hi. apply in_map_iff in Hi.
      destruct Hi as [k [E Hk]]. apply in_seq in Hk. lia.
    + exists l. split; [exact E1|]. eapply selects_fun; [exact E2|].
      unfold zseq. apply (selects_zseq_gen (all_vals rs) (Z.to_nat num) 0). unfold total in Hle. lia.
  - intro Hgt. apply H2. apply Exists_exists. exists (total rs). split; [|lia].
    unfold zseq. apply in_map_iff. exists (Z.to_nat (total rs)). unfold total in *. split; [lia|].
    apply in_seq. lia.
Qed.

Lemma ipset_indexed rs num idx :
  Forall range_ok rs -> total rs <= max64 - 255 -> Forall (fun i => 0 <= i <= max64) idx ->
  0 <= num ->
  (num <= Z.of_nat (length idx) -> Forall (fun i => i < total rs) (firstn (Z.to_nat num) idx) ->
     exists l, ipset rs num (Some idx) = IPOk (map Some l)
               /\ selects (all_vals rs) (firstn (Z.to_nat num) idx) (map ipval l)) /\
  (Z.of_nat (length idx) < num \/ Exists (fun i => total rs <= i) (firstn (Z.to_nat num) idx) ->
     ipset rs num (Some idx) = IPErr).
Proof.
  intros Hok Ht Hi Hn. unfold ipset.
  assert (Hf : Forall (fun i => 0 <= i <= max64) (firstn (Z.to_nat num) idx)).
  { rewrite <- (firstn_skipn (Z.to_nat num) idx) in Hi. apply Forall_app in Hi. tauto. }
  destruct (ipset_all_spec rs _ Hok Ht Hf) as [H1 H2].
  destruct (Z.ltb_spec (Z.of_nat (length idx)) num).
  - split; [intro; lia|reflexivity].
  - destruct (Z.ltb_spec num 0); [lia|]. split; [intros _; exact H1|].
    intros [Hx|Hx]; [lia|exact (H2 Hx)].
Qed.

(** ** static_ips *)
Lemma inc_rev_spec l : Forall (fun b => 0 <= b < 256) l ->
  Forall (fun b => 0 <= b < 256) (inc_rev l) /\ length (inc_rev l) = length l /\
  leval (inc_rev l) = (leval l + 1) mod 256 ^ Z.of_nat (length l).
Proof.
  induction l as [|b r IH]; intro H.
  - cbn. repeat split. constructor.
  - inversion H as [|? ? Hb Hr]; subst. destruct (IH Hr) as [I1 [I2 I3]].
    cbn [inc_rev length leval]. rewrite Nat2Z.inj_succ, Z.pow_succ_r by lia.
    pose proof (leval_range r Hr) as Rr. unfold byte_of.
    destruct (Z.eq_dec b 255) as [->|Hne].
    + change ((255 + 1) mod 256) with 0. cbn [Z.ltb Z.compare]. cbn [length leval].
      split; [constructor; [lia|exact I1]|]. split; [rewrite I2; reflexivity|].
      rewrite I3. replace (255 + 256 * leval r + 1) with (256 * (leval r + 1)) by lia.
      rewrite Z.mul_mod_distr_l by (try lia; pose proof (pow256_pos (length r)); lia). lia.
    + rewrite (Z.mod_small (b + 1)) by lia. destruct (Z.ltb_spec 0 (b + 1)); [|lia].
      cbn [length leval]. split; [constructor; [lia|exact Hr]|]. split; [reflexivity|].
      rewrite Z.mod_small by lia. lia.
Qed.

Lemma ip_inc_spec a : ip_ok a -> ip_ok (ip_inc a) /\ length (ip_inc a) = length a /\
  ipval (ip_inc a) = (ipval a + 1) mod space (length a).
Proof.
  intro H. destruct (inc_rev_spec (rev a) (proj1 (ip_ok_rev a) H)) as [H1 [H2 H3]].
  unfold ip_inc. split; [apply Forall_rev; exact H1|]. split; [rewrite rev_length, H2, rev_length; reflexivity|].
  rewrite !ipval_leval, rev_involutive, H3, rev_length. reflexivity.
Qed.

Lemma ip_range_spec n a b : ip_ok a -> ip_ok b -> length a = length b -> ipval b = ipval a + Z.of_nat n ->
  exists l, ip_range (S n) a b = Some l /\ map ipval l = map (fun k => ipval a + k) (zseq (Z.of_nat n + 1)).
Proof.
  revert a. induction n as [|n IH]; intros a Ha Hb Hl Hv.
  - assert (a = b) by (apply ipval_inj; auto; lia). subst b. exists [a].
    cbn [ip_range]. destruct (list_eq_dec Z.eq_dec a a); [|congruence]. split; [reflexivity|].
    change (zseq (Z.of_nat 0 + 1)) with [0]. cbn [map]. f_equal. lia.
  - change (ip_range (S (S n)) a b) with
      (if list_eq_dec Z.eq_dec a b then Some [a]
       else match ip_range (S n) (ip_inc a) b with Some l => Some (a :: l) | None => None end).
    destruct (list_eq_dec Z.eq_dec a b) as [->|Hne]; [lia|].
    destruct (ip_inc_spec a Ha) as [I1 [I2 I3]].
    pose proof (ipval_range b Hb) as Rb. pose proof (ipval_range a Ha) as Ra. rewrite <- Hl in Rb.
    rewrite Z.mod_small in I3 by lia.
    destruct (IH (ip_inc a) I1 Hb ltac:(congruence) ltac:(lia)) as [l [E1 E2]].
    rewrite E1. exists (a :: l). split; [reflexivity|]. cbn [map]. rewrite E2.
    unfold zseq. replace (Z.to_nat (Z.of_nat (S n) + 1)) with (S (Z.to_nat (Z.of_nat n + 1))) by lia.
    cbn [seq map]. f_equal; [lia|]. rewrite !map_map.
    rewrite <- seq_shift, map_map. apply map_ext. intro k. lia.
Qed.
