From Coq Require Import ZArith List Bool Lia ZifyBool.
From Verif Require Import Base BaseFacts Hash HashSpec.
Import ListNotations.
Open Scope Z_scope.

Lemma land1_odd : forall s, (Z.land s 1 =? 1) = Z.odd s.
Proof.
  intros s. change 1 with (Z.ones 1) at 1. rewrite Z.land_ones by lia. change (2 ^ 1) with 2.
  rewrite Zmod_odd. destruct (Z.odd s); reflexivity.
Qed.

Lemma crc_t_odd : forall poly s, crc_t poly s = if Z.odd s then Z.lxor (Z.shiftr s 1) poly else Z.shiftr s 1.
Proof. intros. unfold crc_t. rewrite land1_odd. reflexivity. Qed.

Lemma odd_lxor : forall a b, Z.odd (Z.lxor a b) = xorb (Z.odd a) (Z.odd b).
Proof. intros. rewrite <- !Z.bit0_odd. apply Z.lxor_spec. Qed.

Lemma crc_t_xor : forall poly a b, crc_t poly (Z.lxor a b) = Z.lxor (crc_t poly a) (crc_t poly b).
Proof.
  intros poly a b. rewrite !crc_t_odd, odd_lxor, Z.shiftr_lxor.
  destruct (Z.odd a), (Z.odd b); cbn [xorb];
    apply Z.bits_inj; intros i; rewrite ?Z.lxor_spec;
    destruct (Z.testbit (Z.shiftr a 1) i), (Z.testbit (Z.shiftr b 1) i), (Z.testbit poly i); reflexivity.
Qed.

Lemma crc_t_0 : forall poly, crc_t poly 0 = 0.
Proof. reflexivity. Qed.

(** [n] steps. *)
Fixpoint crc_iter (poly : Z) (n : nat) (s : Z) : Z :=
  match n with O => s | S n => crc_t poly (crc_iter poly n s) end.

Lemma crc_iter_xor : forall poly n a b,
  crc_iter poly n (Z.lxor a b) = Z.lxor (crc_iter poly n a) (crc_iter poly n b).
Proof. intros poly n a b. induction n as [|n IH]; [reflexivity|]. cbn [crc_iter]. rewrite IH. apply crc_t_xor. Qed.

Lemma crc_iter_0 : forall poly n, crc_iter poly n 0 = 0.
Proof. intros poly n. induction n as [|n IH]; [reflexivity|]. cbn [crc_iter]. rewrite IH. reflexivity. Qed.

Lemma table_iter : forall poly i, crc_table poly i = crc_iter poly 8 i.
Proof. reflexivity. Qed.

(** Bits that have not reached the low end are only shifted. *)
Lemma crc_iter_high : forall poly n a,
  (forall i, 0 <= i < Z.of_nat n -> Z.testbit a i = false) -> crc_iter poly n a = Z.shiftr a (Z.of_nat n).
Proof.
  intros poly n a. induction n as [|n IH]; intros H; [symmetry; apply Z.shiftr_0_r|].
  cbn [crc_iter]. rewrite IH by (intros; apply H; lia). rewrite crc_t_odd, <- Z.bit0_odd, Z.shiftr_spec by lia.
  rewrite H by lia. rewrite Z.shiftr_shiftr by lia. f_equal. lia.
Qed.

Lemma split_low : forall a n, 0 <= n -> a = Z.lxor (a mod 2 ^ n) (Z.shiftl (Z.shiftr a n) n).
Proof.
  intros a n Hn. apply Z.bits_inj'. intros i Hi. rewrite Z.lxor_spec.
  destruct (Z.ltb_spec i n).
  - rewrite Z.mod_pow2_bits_low by lia. rewrite Z.shiftl_spec_low by lia. rewrite xorb_false_r. reflexivity.
  - rewrite Z.mod_pow2_bits_high by lia. rewrite Z.shiftl_spec_high by lia. rewrite Z.shiftr_spec by lia.
    rewrite xorb_false_l. f_equal. lia.
Qed.

Lemma crc_iter_split : forall poly n a,
  crc_iter poly n a = Z.lxor (Z.shiftr a (Z.of_nat n)) (crc_iter poly n (a mod 2 ^ Z.of_nat n)).
Proof.
  intros poly n a. rewrite (split_low a (Z.of_nat n)) at 1 by lia. rewrite crc_iter_xor.
  rewrite (crc_iter_high poly n (Z.shiftl _ _)).
  - rewrite Z.shiftr_shiftl_l by lia. rewrite Z.sub_diag, Z.shiftl_0_r. apply Z.lxor_comm.
  - intros i Hi. apply Z.shiftl_spec_low. lia.
Qed.

(** A number made of message bits, low end first. *)
Fixpoint word (ms : list bool) : Z :=
  match ms with [] => 0 | m :: ms => Z.b2z m + 2 * word ms end.

Lemma word_bound : forall ms, 0 <= word ms < 2 ^ Z.of_nat (length ms).
Proof.
  intros ms. induction ms as [|m ms IH]; cbn [word length]; [lia|].
  rewrite Nat2Z.inj_succ, Z.pow_succ_r by lia. destruct m; cbn [Z.b2z]; lia.
Qed.

Lemma odd_word : forall m ms, Z.odd (word (m :: ms)) = m.
Proof.
  intros m ms. cbn [word]. rewrite Z.odd_add_mul_2. destruct m; reflexivity.
Qed.

Lemma shift_word : forall m ms, Z.shiftr (word (m :: ms)) 1 = word ms.
Proof.
  intros m ms. cbn [word]. rewrite Z.shiftr_div_pow2 by lia. change (2 ^ 1) with 2.
  rewrite Z.mul_comm, Z.div_add by lia. destruct m; reflexivity.
Qed.

Lemma bit_step_t : forall poly a m, bit_step poly a m = crc_t poly (Z.lxor a (Z.b2z m)).
Proof.
  intros poly a m. rewrite crc_t_odd, odd_lxor, Z.shiftr_lxor. unfold bit_step.
  rewrite <- Z.div2_spec, Z.div2_div.
  replace (Z.odd (Z.b2z m)) with m by (destruct m; reflexivity).
  replace (Z.shiftr (Z.b2z m) 1) with 0 by (destruct m; reflexivity).
  rewrite !Z.lxor_0_r. reflexivity.
Qed.

(** Feeding bits one at a time or adding them all at once and stepping. *)
Lemma feed_word : forall poly ms a,
  fold_left (bit_step poly) ms a = crc_iter poly (length ms) (Z.lxor a (word ms)).
Proof.
  intros poly ms.
  assert (It : forall n s, crc_iter poly (S n) s = crc_iter poly n (crc_t poly s)).
  { intros n. induction n as [|n IH]; intros s; [reflexivity|]. cbn [crc_iter] in *. rewrite IH. reflexivity. }
  induction ms as [|m ms IH]; intros a; [cbn; symmetry; apply Z.lxor_0_r|].
  cbn [fold_left length]. rewrite IH, It. f_equal. rewrite bit_step_t.
  rewrite !crc_t_xor, Z.lxor_assoc. f_equal.
  rewrite !crc_t_odd, odd_word, shift_word.
  replace (Z.odd (Z.b2z m)) with m by (destruct m; reflexivity).
  replace (Z.shiftr (Z.b2z m) 1) with 0 by (destruct m; reflexivity).
  destruct m; rewrite ?Z.lxor_0_l; [apply Z.lxor_comm|reflexivity].
Qed.

Lemma word_byte : forall b, 0 <= b < 256 -> word (byte_bits b) = b.
Proof.
  intros b H.
  assert (C : forallb (fun n => word (byte_bits (Z.of_nat n)) =? Z.of_nat n) (seq 0 256) = true) by (vm_compute; reflexivity).
  rewrite forallb_forall in C. specialize (C (Z.to_nat b)). rewrite Z2Nat.id in C by lia.
  apply Z.eqb_eq, C. apply in_seq. lia.
Qed.

Lemma lxor_mod : forall a b n, 0 <= n -> Z.lxor a b mod 2 ^ n = Z.lxor (a mod 2 ^ n) (b mod 2 ^ n).
Proof.
  intros a b n Hn. apply Z.bits_inj'. intros i Hi. rewrite Z.lxor_spec. destruct (Z.ltb_spec i n).
  - rewrite !Z.mod_pow2_bits_low by lia. apply Z.lxor_spec.
  - rewrite !Z.mod_pow2_bits_high by lia. reflexivity.
Qed.

Lemma byte_step : forall poly a b, 0 <= b < 256 ->
  Z.lxor (Z.shiftr a 8) (crc_table poly (Z.lxor a b mod 256)) = fold_left (bit_step poly) (byte_bits b) a.
Proof.
  intros poly a b Hb. rewrite feed_word, word_byte by auto. change (length (byte_bits b)) with 8%nat.
  rewrite crc_iter_split. change (Z.of_nat 8) with 8. change (2 ^ 8) with 256. rewrite table_iter. f_equal.
  rewrite Z.shiftr_lxor. replace (Z.shiftr b 8) with 0; [symmetry; apply Z.lxor_0_r|].
  rewrite Z.shiftr_div_pow2 by lia. symmetry. apply Z.div_small. exact Hb.
Qed.

Lemma crc_sum_bits : forall poly bytes a, is_bytes bytes ->
  crc_sum poly bytes a = fold_left (bit_step poly) (bits bytes) a.
Proof.
  intros poly bytes. induction bytes as [|b bytes IH]; intros a H; [reflexivity|].
  inversion H; subst. unfold crc_sum. cbn [fold_left]. unfold bits. cbn [flat_map]. rewrite fold_left_app.
  fold (bits bytes). rewrite <- byte_step by auto. rewrite <- IH by auto. reflexivity.
Qed.

(** Words stay words. *)
Lemma lxor_bound : forall w a b, 0 <= w -> 0 <= a < 2 ^ w -> 0 <= b < 2 ^ w -> 0 <= Z.lxor a b < 2 ^ w.
Proof.
  intros w a b Hw Ha Hb.
  assert (E : Z.lxor a b = Z.lxor a b mod 2 ^ w) by (rewrite lxor_mod, !Z.mod_small by lia; reflexivity).
  rewrite E. apply Z.mod_pos_bound. lia.
Qed.

Lemma shiftr_bound : forall w a, 1 <= w -> 0 <= a < 2 ^ w -> 0 <= Z.shiftr a 1 < 2 ^ (w - 1).
Proof.
  intros w a Hw Ha. rewrite Z.shiftr_div_pow2 by lia. change (2 ^ 1) with 2.
  replace w with (Z.succ (w - 1)) in Ha by lia. rewrite Z.pow_succ_r in Ha by lia.
  split; [apply Z.div_pos; lia|apply Z.div_lt_upper_bound; lia].
Qed.

Lemma crc_t_bound : forall w poly a, 1 <= w -> 0 <= poly < 2 ^ w -> 0 <= a < 2 ^ w -> 0 <= crc_t poly a < 2 ^ w.
Proof.
  intros w poly a Hw Hp Ha. rewrite crc_t_odd. pose proof (shiftr_bound w a Hw Ha) as B.
  assert (2 ^ (w - 1) <= 2 ^ w) by (apply Z.pow_le_mono_r; lia).
  destruct (Z.odd a); [apply lxor_bound; lia|lia].
Qed.

Lemma bit_step_bound : forall w poly ms a, 1 <= w -> 0 <= poly < 2 ^ w -> 0 <= a < 2 ^ w ->
  0 <= fold_left (bit_step poly) ms a < 2 ^ w.
Proof.
  intros w poly ms a Hw Hp. revert a. induction ms as [|m ms IH]; intros a Ha; [exact Ha|]. cbn [fold_left].
  apply IH. rewrite bit_step_t. apply crc_t_bound; auto. apply lxor_bound; auto; [lia|].
  assert (2 ^ 1 <= 2 ^ w) by (apply Z.pow_le_mono_r; lia). destruct m; cbn [Z.b2z]; lia.
Qed.

(** Complement. *)
Lemma lxor_ones : forall w a, 0 <= w -> 0 <= a < 2 ^ w -> Z.lxor a (ones w) = 2 ^ w - 1 - a.
Proof.
  intros w a Hw Ha. unfold ones.
  assert (E : 2 ^ w - 1 = Z.ones w) by (rewrite Z.ones_equiv; lia). rewrite E.
  assert (L : Z.land (Z.lxor a (Z.ones w)) a = 0).
  { apply Z.bits_inj'. intros i Hi. rewrite Z.land_spec, Z.lxor_spec, Z.testbit_0_l.
    destruct (Z.ltb_spec i w).
    - rewrite Z.ones_spec_low by lia. destruct (Z.testbit a i); reflexivity.
    - replace (Z.testbit a i) with false; [apply andb_false_r|]. symmetry.
      rewrite <- (Z.mod_small a (2 ^ w)) by lia. apply Z.mod_pow2_bits_high. lia. }
  pose proof (Z.add_nocarry_lxor _ _ L) as Q.
  rewrite Z.lxor_assoc, (Z.lxor_comm (Z.ones w)), <- Z.lxor_assoc, Z.lxor_nilpotent, Z.lxor_0_l in Q. lia.
Qed.

(** The register from state 0 determines the difference of two runs. *)
Lemma feed_xor : forall poly ms ns a b, length ms = length ns ->
  Z.lxor (fold_left (bit_step poly) ms a) (fold_left (bit_step poly) ns b) =
  crc_iter poly (length ms) (Z.lxor (Z.lxor a b) (Z.lxor (word ms) (word ns))).
Proof.
  intros poly ms ns a b L. rewrite !feed_word, <- L, <- crc_iter_xor. f_equal.
  apply Z.bits_inj'. intros i _. rewrite !Z.lxor_spec.
  destruct (Z.testbit a i), (Z.testbit b i), (Z.testbit (word ms) i), (Z.testbit (word ns) i); reflexivity.
Qed.

(** With the top bit of the polynomial set no step loses information. *)
Lemma crc_t_kernel : forall w poly a, 1 <= w -> Z.testbit poly (w - 1) = true -> 0 <= a < 2 ^ w ->
  crc_t poly a = 0 -> a = 0.
Proof.
  intros w poly a Hw Hp Ha. rewrite crc_t_odd. pose proof (shiftr_bound w a Hw Ha) as B.
  destruct (Z.odd a) eqn:O; intros E.
  - exfalso. assert (T : Z.testbit (Z.lxor (Z.shiftr a 1) poly) (w - 1) = true).
    { rewrite Z.lxor_spec, Hp. rewrite <- (Z.mod_small (Z.shiftr a 1) (2 ^ (w - 1))) by lia.
      rewrite Z.mod_pow2_bits_high by lia. reflexivity. }
    rewrite E, Z.testbit_0_l in T. discriminate.
  - rewrite <- Z.div2_spec in E. rewrite (Z.div2_odd a), E, O. reflexivity.
Qed.

Lemma crc_iter_bound : forall w poly n a, 1 <= w -> 0 <= poly < 2 ^ w -> 0 <= a < 2 ^ w -> 0 <= crc_iter poly n a < 2 ^ w.
Proof.
  intros w poly n a Hw Hp Ha. induction n as [|n IH]; [exact Ha|]. cbn [crc_iter]. apply crc_t_bound; auto.
Qed.

Lemma crc_iter_kernel : forall w poly n a, 1 <= w -> 0 <= poly < 2 ^ w -> Z.testbit poly (w - 1) = true ->
  0 <= a < 2 ^ w -> crc_iter poly n a = 0 -> a = 0.
Proof.
  intros w poly n a Hw Hb Hp Ha. induction n as [|n IH]; [auto|]. cbn [crc_iter]. intros E.
  apply IH. eapply crc_t_kernel; eauto. apply crc_iter_bound; auto.
Qed.

Lemma word_inj : forall u v, length u = length v -> word u = word v -> u = v.
Proof.
  intros u. induction u as [|a u IH]; intros [|b v] L E; try discriminate; [reflexivity|].
  assert (a = b) by (rewrite <- (odd_word a u), <- (odd_word b v), E; reflexivity). subst b. f_equal.
  apply IH; [cbn in L; lia|]. rewrite <- (shift_word a u), <- (shift_word a v), E. reflexivity.
Qed.

Lemma word_bound_le : forall ms w, Z.of_nat (length ms) <= w -> 0 <= word ms < 2 ^ w.
Proof.
  intros ms w H. pose proof (word_bound ms). assert (2 ^ Z.of_nat (length ms) <= 2 ^ w) by (apply Z.pow_le_mono_r; lia). lia.
Qed.

(** A burst of at most [w] bits changes the register, and the change survives. *)
Lemma burst : forall w poly u v q a, 1 <= w -> 0 <= poly < 2 ^ w -> Z.testbit poly (w - 1) = true ->
  length u = length v -> Z.of_nat (length u) <= w -> u <> v ->
  fold_left (bit_step poly) (u ++ q) a <> fold_left (bit_step poly) (v ++ q) a.
Proof.
  intros w poly u v q a Hw Hb Hp L Lw Ne E. rewrite !fold_left_app in E.
  set (x := fold_left (bit_step poly) u a) in *. set (y := fold_left (bit_step poly) v a) in *.
  assert (Exy : Z.lxor x y = crc_iter poly (length u) (Z.lxor (word u) (word v))).
  { unfold x, y. rewrite feed_xor by auto. rewrite Z.lxor_nilpotent, Z.lxor_0_l. reflexivity. }
  assert (Bw : 0 <= Z.lxor (word u) (word v) < 2 ^ w).
  { apply lxor_bound; [lia| |]; apply word_bound_le; lia. }
  assert (Bxy : 0 <= Z.lxor x y < 2 ^ w) by (rewrite Exy; apply crc_iter_bound; auto).
  pose proof (feed_xor poly q q x y eq_refl) as Q. rewrite E, Z.lxor_nilpotent, Z.lxor_nilpotent, Z.lxor_0_r in Q.
  assert (H : Z.lxor x y = 0) by (apply (crc_iter_kernel w poly (length q)); auto).
  rewrite Exy in H. assert (H0 : Z.lxor (word u) (word v) = 0) by (apply (crc_iter_kernel w poly (length u)); auto).
  apply Z.lxor_eq in H0. apply Ne, word_inj; auto.
Qed.

Lemma bits_length : forall bytes, length (bits bytes) = (8 * length bytes)%nat.
Proof. intros bytes. induction bytes as [|b l IH]; [reflexivity|]. unfold bits in *. cbn [flat_map length]. rewrite app_length, IH. cbn. lia. Qed.

Lemma bits_app : forall a b, bits (a ++ b) = bits a ++ bits b.
Proof. intros. unfold bits. apply flat_map_app. Qed.

Lemma bits_inj : forall a b, is_bytes a -> is_bytes b -> bits a = bits b -> a = b.
Proof.
  intros a. induction a as [|x a IH]; intros [|y b] Ha Hb E; try (cbn in E; discriminate); [reflexivity|].
  inversion Ha; inversion Hb; subst. unfold bits in E. cbn [flat_map] in E.
  assert (byte_bits x = byte_bits y /\ flat_map byte_bits a = flat_map byte_bits b) as [E1 E2].
  { cbn in E. inversion E. split; [unfold byte_bits; cbn; congruence|auto]. }
  f_equal; [|apply IH; auto]. rewrite <- (word_byte x), <- (word_byte y), E1 by auto. reflexivity.
Qed.

Lemma lxor_byte : forall a b, 0 <= a < 256 -> 0 <= b < 256 -> 0 <= Z.lxor a b < 256.
Proof. intros. apply (lxor_bound 8); lia. Qed.

Lemma xors_bytes : forall a b, is_bytes a -> is_bytes b -> is_bytes (xors a b).
Proof.
  intros a. induction a as [|x a IH]; intros [|y b] Ha Hb; cbn; try constructor; inversion Ha; inversion Hb; subst.
  - apply lxor_byte; auto.
  - apply IH; auto.
Qed.

Lemma xors_length : forall a b, length a = length b -> length (xors a b) = length a.
Proof. intros a. induction a as [|x a IH]; intros [|y b] H; cbn in *; try discriminate; auto. Qed.

Lemma word_app : forall a b, word (a ++ b) = word a + 2 ^ Z.of_nat (length a) * word b.
Proof.
  intros a b. induction a as [|m a IH]; cbn [word app length]; [change (2 ^ Z.of_nat 0) with 1; lia|].
  rewrite IH, Nat2Z.inj_succ, Z.pow_succ_r by lia. lia.
Qed.

Lemma word_xors : forall a b, length a = length b -> is_bytes a -> is_bytes b ->
  word (bits (xors a b)) = Z.lxor (word (bits a)) (word (bits b)).
Proof.
  intros a. induction a as [|x a IH]; intros [|y b] L Ha Hb; try discriminate; [reflexivity|].
  inversion Ha; inversion Hb; subst. cbn [xors]. unfold bits in *. cbn [flat_map].
  rewrite !word_app, !word_byte, IH by (auto using lxor_byte). change (length (byte_bits (Z.lxor x y))) with 8%nat.
  change (length (byte_bits x)) with 8%nat. change (length (byte_bits y)) with 8%nat.
  set (A := word (flat_map byte_bits a)). set (B := word (flat_map byte_bits b)).
  change (Z.of_nat 8) with 8.
  assert (S : forall p q, 0 <= p < 256 -> p + 2 ^ 8 * q = Z.lxor p (Z.shiftl q 8)).
  { intros p q Hp. rewrite (split_low (p + 2 ^ 8 * q) 8) by lia. f_equal.
    - rewrite Z.mul_comm, Z.mod_add by lia. apply Z.mod_small. exact Hp.
    - f_equal. rewrite Z.shiftr_div_pow2 by lia. rewrite Z.mul_comm, Z.div_add by lia. rewrite Z.div_small by exact Hp. lia. }
  rewrite !S by (auto using lxor_byte). rewrite Z.shiftl_lxor.
  apply Z.bits_inj'. intros i _. rewrite !Z.lxor_spec.
  destruct (Z.testbit x i), (Z.testbit y i), (Z.testbit (Z.shiftl A 8) i), (Z.testbit (Z.shiftl B 8) i); reflexivity.
Qed.
