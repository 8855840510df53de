(** Properties C50 - C52: cyclic redundancy checks. *)
From Coq Require Import ZArith List Bool Lia ZifyBool.
From Verif Require Import Base BaseFacts Hash HashSpec HashFacts Demo.
Import ListNotations.
Open Scope Z_scope.
Open Scope model_scope.

Definition word_poly (w poly : Z) : Prop := 8 <= w /\ 0 <= poly < 2 ^ w.

Lemma ones_range : forall w, 0 <= w -> 0 <= ones w < 2 ^ w.
Proof. intros w H. unfold ones. pose proof (Z.pow_pos_nonneg 2 w). lia. Qed.

(** *** C50: the table-driven computation is the bit-serial one. *)
Theorem C50_crc : forall w poly bytes, word_poly w poly -> is_bytes bytes ->
  crc w poly bytes = crc_bits w poly (bits bytes).
Proof.
  intros w poly bytes [Hw Hp] Hb. unfold crc, crc_bits. rewrite crc_sum_bits by auto.
  rewrite lxor_ones; [reflexivity|lia|]. apply bit_step_bound; [lia|auto|]. apply ones_range. lia.
Qed.

(** The operator, for tensors of any element type and rank: the byte string is
    the concatenation of the object representations. *)
Theorem C50_op : forall V T (dn : dtype V Z) (dt : dtype V T) w poly rep y x X s,
  word_poly w poly -> (forall v, is_bytes (rep v)) -> dims_ok x -> tdims y = [] -> holds dt s x X -> mapped s y ->
  writes dn (op_crc w poly dn dt rep y x) s y
    (fun _ => crc_bits w poly (bits (flat_map (fun ix => rep (X ix)) (indices (tdims x))))).
Proof.
  intros V T dn dt w poly rep y x X s WP Hr D Ey HX Hm.
  set (bs := flat_map (fun ix => rep (X ix)) (indices (tdims x))).
  assert (Hbs : is_bytes bs).
  { unfold bs. apply Forall_forall. intros b Hb. apply in_flat_map in Hb. destruct Hb as (ix & _ & Hb).
    pose proof (Hr (X ix)) as Q. unfold is_bytes in Q. rewrite Forall_forall in Q. auto. }
  assert (E : op_crc w poly dn dt rep y x s = Ok tt (upd s (daddr y 0) (emb dn (crc w poly bs)))).
  { unfold op_crc. erewrite bind_ok.
    2:{ apply foldM_pure with (g := fun bs o => bs ++ rep (X (expand (tdims x) o))). intros l o Ho. apply in_zrange in Ho.
        rewrite (bind_ok _ _ _ _ _ (load_ok dt s (daddr x o) _ (holds_daddr dt s x X o D HX Ho))). reflexivity. }
    replace (fold_left (fun bs o => bs ++ rep (X (expand (tdims x) o))) (zrange (size x)) []) with bs.
    - apply store_ok. apply Hm. apply daddr_foot. unfold size. rewrite Ey. cbn. lia.
    - unfold bs. rewrite indices_expand by auto. change (prod (tdims x)) with (size x).
      assert (G : forall l acc, fold_left (fun bs o => bs ++ rep (X (expand (tdims x) o))) l acc =
        acc ++ flat_map (fun ix => rep (X ix)) (map (expand (tdims x)) l)).
      { intros l. induction l as [|o l IH]; intros acc; cbn [fold_left map flat_map]; [symmetry; apply app_nil_r|].
        rewrite IH, app_assoc. reflexivity. }
      rewrite G. reflexivity. }
  rewrite <- C50_crc by auto. eexists. split; [exact E|]. split.
  - intros ix Hix. rewrite Ey in Hix. destruct ix; [|destruct Hix]. unfold addr. rewrite Ey. cbn [offset cells upd].
    rewrite loc_eqb_refl. reflexivity.
  - split; [cbn; lia|]. intros p Hp. cbn [cells upd]. destruct (loc_eqb_spec p (daddr y 0)) as [->|]; [|reflexivity].
    exfalso. apply Hp. apply daddr_foot. unfold size. rewrite Ey. cbn. lia.
Qed.

(** "Hello world", as in the repository's tests. *)
Definition hello := [72; 101; 108; 108; 111; 32; 119; 111; 114; 108; 100].
Example C50_example :
  crc16_usb hello = 0xe293 /\ crc 32 0xD5828281 hello = 0x2964d064 /\
  crc32_ieee hello = 0x8bd69e52 /\ crc64_ecma hello = 0xf4a5f2b9d47756bf.
Proof. vm_compute. auto. Qed.

(** *** C51: burst errors. *)
Theorem C51_burst : forall w poly x y p u v q,
  word_poly w poly -> Z.testbit poly (w - 1) = true -> is_bytes x -> is_bytes y ->
  bits x = p ++ u ++ q -> bits y = p ++ v ++ q ->
  length u = length v -> Z.of_nat (length u) <= w -> x <> y ->
  crc w poly x <> crc w poly y.
Proof.
  intros w poly x y p u v q [Hw Hp] Ht Hx Hy Ex Ey L Lw Ne E.
  rewrite !C50_crc in E by (auto; split; auto). unfold crc_bits in E.
  rewrite Ex, Ey, !(fold_left_app _ p) in E.
  apply (burst w poly u v q (fold_left (bit_step poly) p (2 ^ w - 1))); auto; try lia.
  intros ->. apply Ne, bits_inj; auto. congruence.
Qed.

(** In particular a single wrong byte. *)
Theorem C51_byte : forall w poly p b b' q,
  word_poly w poly -> Z.testbit poly (w - 1) = true -> is_bytes (p ++ b :: q) -> is_bytes (p ++ b' :: q) -> b <> b' ->
  crc w poly (p ++ b :: q) <> crc w poly (p ++ b' :: q).
Proof.
  intros w poly p b b' q WP Ht H1 H2 Ne.
  apply (C51_burst w poly _ _ (bits p) (byte_bits b) (byte_bits b') (bits q)); auto.
  - rewrite bits_app. reflexivity.
  - rewrite bits_app. reflexivity.
  - cbn. destruct WP. lia.
  - intros E. apply app_inv_head in E. congruence.
Qed.

Theorem C51_predefined : 
  (word_poly 16 poly_usb /\ Z.testbit poly_usb 15 = true) /\
  (word_poly 32 poly_ieee /\ Z.testbit poly_ieee 31 = true) /\
  (word_poly 64 poly_ecma /\ Z.testbit poly_ecma 63 = true).
Proof. unfold word_poly. repeat split; vm_compute; congruence. Qed.

(** Without the top bit errors can be lost. *)
Theorem C51_top_bit_needed : exists poly x y, word_poly 16 poly /\ is_bytes x /\ is_bytes y /\
  length x = length y /\ x <> y /\ crc 16 poly x = crc 16 poly y.
Proof.
  exists 0, [0; 0; 0], [1; 0; 0]. unfold word_poly, is_bytes.
  repeat split; try (vm_compute; congruence); repeat constructor; try lia; discriminate.
Qed.

(** A burst across two bytes. *)
Example C51_example : crc16_usb [1; 2; 3] <> crc16_usb [1; 2 + 128; 3 + 1] /\
  bits [1; 2; 3] = (bits [1] ++ [false; true; false; false; false; false; false]) ++ [false; true] ++ [true; false; false; false; false; false; false].
Proof. split; [vm_compute; discriminate|reflexivity]. Qed.

(** *** C52: affine in the message; prefixes act through their CRC. *)
Lemma crc_iter_form : forall w poly x, word_poly w poly -> is_bytes x ->
  crc w poly x = Z.lxor (crc_iter poly (length (bits x)) (Z.lxor (ones w) (word (bits x)))) (ones w).
Proof. intros w poly x WP Hx. unfold crc. rewrite crc_sum_bits, feed_word by auto. reflexivity. Qed.

Theorem C52_affine : forall w poly a b c, word_poly w poly -> is_bytes a -> is_bytes b -> is_bytes c ->
  length a = length b -> length b = length c ->
  crc w poly (xors (xors a b) c) = Z.lxor (Z.lxor (crc w poly a) (crc w poly b)) (crc w poly c).
Proof.
  intros w poly a b c WP Ha Hb Hc L1 L2.
  assert (Lab : length (xors a b) = length c) by (rewrite xors_length; congruence).
  rewrite !crc_iter_form by (auto using xors_bytes). rewrite !bits_length, !xors_length by (rewrite ?xors_length; congruence).
  rewrite <- L2, <- L1. rewrite !word_xors by (auto using xors_bytes).
  set (n := (8 * length a)%nat). rewrite !crc_iter_xor.
  set (O := crc_iter poly n (ones w)). set (A := crc_iter poly n (word (bits a))).
  set (B := crc_iter poly n (word (bits b))). set (C := crc_iter poly n (word (bits c))).
  apply Z.bits_inj'. intros i _. rewrite !Z.lxor_spec.
  destruct (Z.testbit O i), (Z.testbit A i), (Z.testbit B i), (Z.testbit C i), (Z.testbit (ones w) i); reflexivity.
Qed.

(** The CRC of a concatenation is a function of the CRC of the prefix and of the
    suffix; an injective one when the top bit is set. *)
Theorem C52_concat : forall w poly q, word_poly w poly -> exists f, forall p, crc w poly (p ++ q) = f (crc w poly p).
Proof.
  intros w poly q WP. exists (fun c => Z.lxor (crc_sum poly q (Z.lxor c (ones w))) (ones w)).
  intros p. unfold crc. rewrite Z.lxor_assoc, Z.lxor_nilpotent, Z.lxor_0_r.
  unfold crc_sum. rewrite fold_left_app. reflexivity.
Qed.

Theorem C52_concat_inj : forall w poly p p' q, word_poly w poly -> Z.testbit poly (w - 1) = true ->
  is_bytes p -> is_bytes p' -> is_bytes q ->
  (crc w poly (p ++ q) = crc w poly (p' ++ q) <-> crc w poly p = crc w poly p').
Proof.
  intros w poly p p' q [Hw Hp] Ht H1 H2 Hq. split.
  - intros E. unfold crc in *. rewrite !crc_sum_bits in * by (auto; apply Forall_app; auto).
    rewrite !bits_app, !fold_left_app in E.
    set (x := fold_left (bit_step poly) (bits p) (ones w)) in *. set (y := fold_left (bit_step poly) (bits p') (ones w)) in *.
    assert (Ex : fold_left (bit_step poly) (bits q) x = fold_left (bit_step poly) (bits q) y).
    { apply (f_equal (fun z => Z.lxor z (ones w))) in E. rewrite !Z.lxor_assoc, Z.lxor_nilpotent, !Z.lxor_0_r in E. exact E. }
    pose proof (feed_xor poly (bits q) (bits q) x y eq_refl) as Q.
    rewrite Ex, Z.lxor_nilpotent, Z.lxor_nilpotent, Z.lxor_0_r in Q.
    assert (R := ones_range w ltac:(lia)).
    assert (Bx : 0 <= x < 2 ^ w) by (apply bit_step_bound; auto; lia).
    assert (By : 0 <= y < 2 ^ w) by (apply bit_step_bound; auto; lia).
    assert (Z0 : Z.lxor x y = 0).
    { apply (crc_iter_kernel w poly (length (bits q))); auto; [lia|]. apply lxor_bound; auto. lia. }
    apply Z.lxor_eq in Z0. rewrite Z0. reflexivity.
  - intros E. destruct (C52_concat w poly q (conj Hw Hp)) as (f & Hf). rewrite !Hf, E. reflexivity.
Qed.

Example C52_example :
  crc32_ieee (xors (xors [1; 2] [7; 255]) [3; 9]) =
    Z.lxor (Z.lxor (crc32_ieee [1; 2]) (crc32_ieee [7; 255])) (crc32_ieee [3; 9]) /\
  (* the empty string has CRC 0 *) crc32_ieee [] = 0.
Proof. vm_compute. auto. Qed.

Print Assumptions C50_crc.
Print Assumptions C50_op.
Print Assumptions C51_burst.
Print Assumptions C51_byte.
Print Assumptions C51_predefined.
Print Assumptions C51_top_bit_needed.
Print Assumptions C52_affine.
Print Assumptions C52_concat.
Print Assumptions C52_concat_inj.
