From Coq Require Import ZArith List Bool Lia ZifyBool.
From Verif Require Import Base BaseFacts Traits HashSpec Io IoSpec IoFacts.
Import ListNotations.
Open Scope Z_scope.

(** ** Size fields *)

Definition digit (n i : Z) : Z := 48 + n / 8 ^ i mod 8.

Lemma digit_range : forall n i, 48 <= digit n i <= 55.
Proof. intros. unfold digit. pose proof (Z.mod_pos_bound (n / 8 ^ i) 8). lia. Qed.

Lemma octal_digits : forall n k acc b tl, is_octal b = false ->
  octal acc (map (digit n) (rev (map Z.of_nat (seq 0 k))) ++ b :: tl) = acc * 8 ^ Z.of_nat k + n mod 8 ^ Z.of_nat k.
Proof.
  intros n k. induction k as [|k IH]; intros acc b tl Hb.
  - cbn [seq map rev app octal]. rewrite Hb. change (8 ^ Z.of_nat 0) with 1. rewrite Z.mod_1_r. lia.
  - rewrite seq_S, map_app, rev_app_distr. cbn [map rev app octal Nat.add].
    pose proof (digit_range n (Z.of_nat k)) as R.
    replace (is_octal (digit n (Z.of_nat k))) with true by (unfold is_octal; lia).
    rewrite IH by auto. rewrite Nat2Z.inj_succ, Z.pow_succ_r by lia. rewrite (Z.mul_comm 8 (8 ^ Z.of_nat k)).
    rewrite Z.rem_mul_r by lia. unfold digit. nia.
Qed.

Lemma stoll8_octal11 : forall n, 0 <= n < 8 ^ 11 -> stoll8 (octal11 n ++ [0]) = Ret n.
Proof.
  intros n H. pose proof (octal_digits n 11 0 0 [] eq_refl) as E.
  change (map (digit n) (rev (map Z.of_nat (seq 0 11)))) with (octal11 n) in E.
  rewrite (Z.mod_small n) in E by (change (Z.of_nat 11) with 11; lia).
  assert (Q : exists l, octal11 n ++ [0] = digit n 10 :: l) by (eexists; reflexivity).
  destruct Q as [l Q]. rewrite Q in *. pose proof (digit_range n 10) as R.
  unfold stoll8. cbn [skip_space]. replace (is_space (digit n 10)) with false by (unfold is_space; lia).
  destruct (Z.eqb_spec (digit n 10) 45); [lia|]. destruct (Z.eqb_spec (digit n 10) 43); [lia|].
  replace (is_octal (digit n 10)) with true by (unfold is_octal; lia). rewrite E. reflexivity.
Qed.

(** Without a minus sign the size is not negative. *)
Lemma octal_nonneg : forall l acc, 0 <= acc -> 0 <= octal acc l.
Proof.
  intros l. induction l as [|b l IH]; intros acc H; cbn [octal]; auto.
  destruct (is_octal b) eqn:E; auto. apply IH. unfold is_octal in E. lia.
Qed.

Lemma skip_space_in : forall l b, In b (skip_space l) -> In b l.
Proof.
  intros l. induction l as [|c l IH]; intros b H; [destruct H|]. cbn [skip_space] in H.
  destruct (is_space c); [right; auto|exact H].
Qed.

Lemma skip_space_length : forall l, (length (skip_space l) <= length l)%nat.
Proof. intros l. induction l as [|c l IH]; cbn [skip_space length]; [lia|]. destruct (is_space c); cbn [length] in *; lia. Qed.

Lemma stoll8_cases : forall l n, stoll8 l = Ret n ->
  exists l', (length l' <= length l)%nat /\ (n = octal 0 l' \/ (n = - octal 0 l' /\ In 45 l)).
Proof.
  intros l n. pose proof (skip_space_length l) as S. unfold stoll8.
  destruct (skip_space l) as [|b l'] eqn:E; [discriminate|]. cbn [length] in S.
  destruct (Z.eqb_spec b 45) as [->|]; [|destruct (b =? 43)].
  - destruct l' as [|c l'']; [discriminate|]. destruct (is_octal c); [|discriminate]. intros Q. exists (c :: l'').
    split; [cbn [length] in *; lia|]. right. split; [congruence|]. apply skip_space_in. rewrite E. left. reflexivity.
  - destruct l' as [|c l'']; [discriminate|]. destruct (is_octal c); [|discriminate]. intros Q. exists (c :: l'').
    split; [cbn [length] in *; lia|]. left. congruence.
  - destruct (is_octal b); [|discriminate]. intros Q. exists (b :: l'). split; [cbn [length] in *; lia|]. left. congruence.
Qed.

Lemma stoll8_nonneg : forall l n, ~ In 45 l -> stoll8 l = Ret n -> 0 <= n.
Proof.
  intros l n Hm E. destruct (stoll8_cases l n E) as (l' & _ & [->|[_ I]]); [|contradiction].
  apply octal_nonneg. lia.
Qed.

(** Twelve digits stay below 8^12. *)
Lemma octal_bound : forall l acc, 0 <= acc -> octal acc l < (acc + 1) * 8 ^ Z.of_nat (length l).
Proof.
  intros l. induction l as [|b l IH]; intros acc H; cbn [octal length]; [change (8 ^ Z.of_nat 0) with 1; lia|].
  rewrite Nat2Z.inj_succ, Z.pow_succ_r by lia. pose proof (Z.pow_pos_nonneg 8 (Z.of_nat (length l))) as P.
  destruct (is_octal b) eqn:E; [|nia]. unfold is_octal in E.
  specialize (IH (8 * acc + (b - 48))). nia.
Qed.

Lemma stoll8_bound : forall l n, (length l <= 12)%nat -> stoll8 l = Ret n -> - 8 ^ 12 < n < 8 ^ 12.
Proof.
  intros l n Hl E. assert (B : forall l', (length l' <= 12)%nat -> 0 <= octal 0 l' < 8 ^ 12).
  { intros l' H'. split; [apply octal_nonneg; lia|]. pose proof (octal_bound l' 0).
    pose proof (Z.pow_le_mono_r 8 (Z.of_nat (length l')) 12). lia. }
  destruct (stoll8_cases l n E) as (l' & L & Q). specialize (B l'). lia.
Qed.

(** ** Headers *)

Lemma c_str_name : forall name k, ~ In 0 name -> c_str (name ++ repeat 0 k) = name.
Proof.
  intros name k. induction name as [|b name IH]; intros H.
  - destruct k; reflexivity.
  - cbn [app c_str]. destruct (Z.eqb_spec b 0) as [->|]; [exfalso; apply H; left; reflexivity|].
    f_equal. apply IH. intros I. apply H. right. exact I.
Qed.

Lemma length_octal11 : forall n, length (octal11 n) = 11%nat.
Proof. reflexivity. Qed.

Lemma name_field_length : forall name, (length name <= 100)%nat -> length (name ++ repeat 0 (100 - length name)) = 100%nat.
Proof. intros. rewrite app_length, repeat_length. lia. Qed.

Lemma header_length : forall name mid tail n,
  (length name <= 100)%nat -> length mid = 24%nat -> length tail = 376%nat -> length (member_header name mid tail n) = 512%nat.
Proof.
  intros. unfold member_header. rewrite app_length, name_field_length by auto. rewrite !app_length, length_octal11. cbn [length]. lia.
Qed.

Lemma parse_header : forall name mid tail n,
  ~ In 0 name -> (length name <= 100)%nat -> length mid = 24%nat -> 0 <= n < 8 ^ 11 ->
  parse_tar_header (member_header name mid tail n) = Ret (name, n).
Proof.
  intros name mid tail n H0 Hl Hm Hn. unfold parse_tar_header, member_header.
  set (nf := name ++ repeat 0 (100 - length name)).
  assert (Ln : length nf = 100%nat) by (apply name_field_length; auto).
  replace (skipn 124 (nf ++ mid ++ (octal11 n ++ [0]) ++ tail)) with ((octal11 n ++ [0]) ++ tail).
  - rewrite (firstn_app_exact _ (octal11 n ++ [0])) by (rewrite app_length, length_octal11; reflexivity).
    rewrite stoll8_octal11 by auto. cbn [obind]. rewrite firstn_app_exact by auto. unfold nf. rewrite c_str_name by auto. reflexivity.
  - rewrite app_assoc, skipn_app_exact by (rewrite app_length; lia). reflexivity.
Qed.

(** ** Block arithmetic *)

Lemma blocks_exact : forall n, 0 <= n < 8 ^ 12 ->
  n_blocks n = (n + 511) / 512.
Proof.
  intros n H. unfold n_blocks. rewrite Z.quot_div_nonneg, Z.rem_mod_nonneg by lia.
  assert (E : n / 512 + (if n mod 512 =? 0 then 0 else 1) = (n + 511) / 512).
  { destruct (Z.eqb_spec (n mod 512) 0); Z.div_mod_to_equations; lia. }
  rewrite E. unfold to_i32. change (8 ^ 12) with 68719476736 in H. change (2 ^ 31) with 2147483648. change (2 ^ 32) with 4294967296.
  rewrite Z.mod_small; Z.div_mod_to_equations; lia.
Qed.

Lemma block_bytes_ok : forall n, 0 <= n <= size_limit -> block_bytes n = Ret (512 * ((n + 511) / 512)).
Proof.
  intros n H. unfold block_bytes, size_limit in *. rewrite blocks_exact by lia.
  assert (B : 0 <= (n + 511) / 512 < 2 ^ 22).
  { change (2 ^ 31) with 2147483648 in H. change (2 ^ 22) with 4194304. Z.div_mod_to_equations. lia. }
  replace ((- 2 ^ 31 <=? (n + 511) / 512 * 512) && ((n + 511) / 512 * 512 <? 2 ^ 31)) with true by lia.
  f_equal. lia.
Qed.

Lemma block_bytes_ub : forall n, size_limit < n < 8 ^ 12 -> block_bytes n = Undef.
Proof.
  intros n H. unfold block_bytes, size_limit in *. rewrite blocks_exact by lia.
  assert (B : 2 ^ 22 <= (n + 511) / 512).
  { change (2 ^ 31) with 2147483648 in H. change (2 ^ 22) with 4194304. Z.div_mod_to_equations. lia. }
  replace ((- 2 ^ 31 <=? (n + 511) / 512 * 512) && ((n + 511) / 512 * 512 <? 2 ^ 31)) with false by lia.
  reflexivity.
Qed.

Lemma pad_blocks : forall k, 512 * ((Z.of_nat k + 511) / 512) = Z.of_nat (k + pad512 k).
Proof.
  intros k. unfold pad512. rewrite Nat2Z.inj_add, Nat2Z.inj_mod, Nat2Z.inj_sub by (pose proof (Nat.mod_upper_bound k 512); lia).
  rewrite Nat2Z.inj_mod. change (Z.of_nat 512) with 512. Z.div_mod_to_equations. lia.
Qed.

(** ** The loop *)

Fixpoint headers (p : Z) (ms : list member) : list tar_header :=
  match ms with
  | [] => []
  | m :: ms => mkhdr (m_name m) (Z.of_nat (length (m_data m))) (p + 512) ::
               headers (p + Z.of_nat (length (member_bytes m))) ms
  end.

Lemma member_bytes_length : forall m, member_ok m ->
  Z.of_nat (length (member_bytes m)) = 512 + 512 * ((Z.of_nat (length (m_data m)) + 511) / 512).
Proof.
  intros m (_ & _ & Hl & Hm & Ht & _). unfold member_bytes. rewrite app_length, header_length by auto.
  rewrite app_length, repeat_length, pad_blocks. lia.
Qed.

Lemma tar_loop_prefix : forall ms pre tl buf idx fuel, Forall member_ok ms ->
  exists buf', tar_loop (length ms + fuel) (pre ++ flat_map member_bytes ms ++ tl) buf (Some (Z.of_nat (length pre))) idx =
    tar_loop fuel (pre ++ flat_map member_bytes ms ++ tl) buf'
      (Some (Z.of_nat (length (pre ++ flat_map member_bytes ms)))) (rev (headers (Z.of_nat (length pre)) ms) ++ idx).
Proof.
  intros ms. induction ms as [|m ms IH]; intros pre tl buf idx fuel W.
  - exists buf. cbn [length Nat.add flat_map headers rev app]. rewrite app_nil_r. reflexivity.
  - inversion W as [|? ? Wm Ws]; subst.
    pose proof (member_bytes_length m Wm) as Lm. pose proof Wm as (N0 & N1 & Hl & Hm & Ht & Hs).
    cbn [length Nat.add tar_loop headers rev].
    set (h := member_header (m_name m) (m_mid m) (m_tail m) (Z.of_nat (length (m_data m)))).
    assert (Ea : flat_map member_bytes (m :: ms) ++ tl = h ++
      (m_data m ++ repeat 0 (pad512 (length (m_data m)))) ++ flat_map member_bytes ms ++ tl).
    { cbn [flat_map]. unfold member_bytes at 1. rewrite <- !app_assoc. reflexivity. }
    assert (Eb : pre ++ flat_map member_bytes (m :: ms) ++ tl = (pre ++ member_bytes m) ++ flat_map member_bytes ms ++ tl).
    { cbn [flat_map]. rewrite <- !app_assoc. reflexivity. }
    assert (Lh : length h = 512%nat) by (apply header_length; auto).
    destruct (Z.ltb_spec (Z.of_nat (length pre)) (Z.of_nat (length (pre ++ flat_map member_bytes (m :: ms) ++ tl)))) as [L|L].
    2:{ exfalso. rewrite Ea, !app_length, Lh in L. lia. }
    assert (Hb : firstn 512 (skipn (Z.to_nat (Z.of_nat (length pre))) (pre ++ flat_map member_bytes (m :: ms) ++ tl)) = h).
    { rewrite Nat2Z.id. rewrite (skipn_app_exact _ pre) by reflexivity. rewrite Ea.
      apply firstn_app_exact. auto. }
    rewrite Hb.
    replace (hd 0 h =? 0) with false.
    2:{ unfold h, member_header. destruct (m_name m) as [|b nm] eqn:En; [congruence|]. cbn [app hd].
        destruct (Z.eqb_spec b 0) as [->|]; [exfalso; apply N1; left; reflexivity|reflexivity]. }
    unfold h at 1. rewrite parse_header; auto.
    2:{ unfold size_limit in Hs. lia. }
    rewrite block_bytes_ok by lia.
    destruct (Z.ltb_spec (Z.of_nat (length pre) + 512 + 512 * ((Z.of_nat (length (m_data m)) + 511) / 512)) 0) as [Q|_].
    { exfalso. rewrite pad_blocks in Q. lia. }
    rewrite Eb. destruct (IH (pre ++ member_bytes m) tl h
      (mkhdr (m_name m) (Z.of_nat (length (m_data m))) (Z.of_nat (length pre) + 512) :: idx) fuel Ws) as (buf' & E).
    exists buf'. rewrite (app_length pre), Nat2Z.inj_add, Lm, Z.add_assoc in E. rewrite E.
    cbn [flat_map]. rewrite (app_assoc pre). rewrite Lm, Z.add_assoc, <- (app_assoc (rev _)). reflexivity.
Qed.

Lemma tar_loop_members : forall ms k fuel, Forall member_ok ms -> (length ms < fuel)%nat ->
  tar_loop fuel (archive ms k) [] (Some 0) [] = Some (Ret (rev (headers 0 ms) ++ [])).
Proof.
  intros ms k fuel W F. unfold archive.
  destruct (tar_loop_prefix ms [] (repeat 0 (512 * k)) [] [] (fuel - length ms) W) as (buf' & E).
  cbn [app length] in E. change (Z.of_nat 0) with 0 in E. rewrite Nat.add_comm, Nat.sub_add in E by lia. rewrite E. clear E.
  destruct (fuel - length ms)%nat as [|f] eqn:Ef; [lia|]. cbn [tar_loop].
  destruct (Z.ltb_spec (Z.of_nat (length (flat_map member_bytes ms)))
    (Z.of_nat (length (flat_map member_bytes ms ++ repeat 0 (512 * k))))) as [L|L]; [|reflexivity].
  rewrite Nat2Z.id, skipn_app_exact by reflexivity.
  rewrite app_length, repeat_length in L. destruct k as [|k]; [lia|].
  replace (512 * S k)%nat with (512 + 512 * k)%nat by lia. rewrite repeat_app.
  rewrite firstn_app_exact by apply repeat_length. reflexivity.
Qed.

Lemma tar_loop_overflow : forall ms name mid tail n rest fuel, Forall member_ok ms -> (length ms < fuel)%nat ->
  name <> [] -> ~ In 0 name -> (length name <= 100)%nat -> length mid = 24%nat -> length tail = 376%nat ->
  size_limit < n < 8 ^ 11 ->
  tar_loop fuel (flat_map member_bytes ms ++ member_header name mid tail n ++ rest) [] (Some 0) [] = Some Undef.
Proof.
  intros ms name mid tail n rest fuel W F N0 N1 Hl Hm Ht Hn.
  destruct (tar_loop_prefix ms [] (member_header name mid tail n ++ rest) [] [] (fuel - length ms) W) as (buf' & E).
  cbn [app length] in E. change (Z.of_nat 0) with 0 in E. rewrite Nat.add_comm, Nat.sub_add in E by lia. rewrite E. clear E.
  assert (Lh : length (member_header name mid tail n) = 512%nat) by (apply header_length; auto).
  destruct (fuel - length ms)%nat as [|f] eqn:Ef; [lia|]. cbn [tar_loop].
  destruct (Z.ltb_spec (Z.of_nat (length (flat_map member_bytes ms)))
    (Z.of_nat (length (flat_map member_bytes ms ++ member_header name mid tail n ++ rest)))) as [L|L].
  2:{ exfalso. rewrite !app_length, Lh in L. lia. }
  rewrite Nat2Z.id, skipn_app_exact by reflexivity. rewrite firstn_app_exact by auto.
  replace (hd 0 (member_header name mid tail n) =? 0) with false.
  2:{ unfold member_header. destruct name as [|b nm]; [congruence|]. cbn [app hd].
      destruct (Z.eqb_spec b 0) as [->|]; [exfalso; apply N1; left; reflexivity|reflexivity]. }
  rewrite parse_header; auto.
  2:{ unfold size_limit in Hn. lia. }
  rewrite block_bytes_ub; [reflexivity|]. lia.
Qed.

Lemma members_length : forall ms, Forall member_ok ms -> Z.of_nat (length (flat_map member_bytes ms)) mod 512 = 0.
Proof.
  intros ms W. induction W as [|m ms Wm Ws IH]; [reflexivity|]. cbn [flat_map]. rewrite app_length, Nat2Z.inj_add, member_bytes_length by auto.
    rewrite Zplus_mod, IH. replace (512 + 512 * ((Z.of_nat (length (m_data m)) + 511) / 512)) with
      ((1 + ((Z.of_nat (length (m_data m)) + 511) / 512)) * 512) by lia. rewrite Z_mod_mult. reflexivity.
Qed.

Lemma archive_length : forall ms k, Forall member_ok ms -> Z.of_nat (length (archive ms k)) mod 512 = 0.
Proof.
  intros ms k W. unfold archive. rewrite app_length, repeat_length. pose proof (members_length ms W) as E.
  rewrite Nat2Z.inj_add, Zplus_mod, E. rewrite Nat2Z.inj_mul. change (Z.of_nat 512) with 512.
  rewrite Z.mul_comm, Z_mod_mult. reflexivity.
Qed.

Lemma headers_app : forall l r p, headers p (l ++ r) = headers p l ++ headers (p + Z.of_nat (length (flat_map member_bytes l))) r.
Proof.
  intros l. induction l as [|m l IH]; intros r p; cbn [app headers flat_map length].
  - rewrite Z.add_0_r. reflexivity.
  - f_equal. rewrite IH, app_length, Nat2Z.inj_add, Z.add_assoc. reflexivity.
Qed.

Lemma headers_names : forall ms p h, In h (headers p ms) -> In (th_name h) (map m_name ms).
Proof.
  intros ms. induction ms as [|m ms IH]; intros p h H; [destruct H|]. cbn in *. destruct H as [<-|H]; [left; reflexivity|right; eauto].
Qed.

Lemma find_none_names : forall name hs, (forall h, In h hs -> th_name h <> name) ->
  find (fun h => if list_eq_dec Z.eq_dec (th_name h) name then true else false) hs = None.
Proof.
  intros name hs H. destruct (find _ hs) as [h|] eqn:E; [|reflexivity]. apply find_some in E. destruct E as [I Q].
  specialize (H h I). destruct (list_eq_dec Z.eq_dec (th_name h) name); congruence.
Qed.

Lemma find_app_none : forall A (f : A -> bool) a b, find f a = None -> find f (a ++ b) = find f b.
Proof. intros A f a b. induction a as [|x a IH]; cbn [find app]; auto. destruct (f x); [discriminate|auto]. Qed.

Lemma tar_find_last : forall l m r p, ~ In (m_name m) (map m_name r) ->
  tar_find (rev (headers p (l ++ m :: r)) ++ []) (m_name m) =
  Ret (mkhdr (m_name m) (Z.of_nat (length (m_data m))) (p + Z.of_nat (length (flat_map member_bytes l)) + 512)).
Proof.
  intros l m r p N. unfold tar_find. rewrite app_nil_r, headers_app. cbn [headers]. rewrite rev_app_distr. cbn [rev].
  rewrite <- app_assoc, find_app_none.
  - cbn [app find th_name]. destruct (list_eq_dec Z.eq_dec (m_name m) (m_name m)); [reflexivity|congruence].
  - apply find_none_names. intros h Hh E. apply in_rev in Hh. apply N. rewrite <- E. eapply headers_names; eauto.
Qed.

Lemma tar_find_unknown : forall ms p name, ~ In name (map m_name ms) ->
  tar_find (rev (headers p ms) ++ []) name = Exn InvalidArgument.
Proof.
  intros ms p name N. unfold tar_find. rewrite app_nil_r, find_none_names; [reflexivity|].
  intros h Hh E. apply in_rev in Hh. apply N. rewrite <- E. eapply headers_names; eauto.
Qed.

(** ** Arbitrary contents *)

(** The size field of block [i]. *)
Definition size_field (content : list Z) (i : nat) : list Z :=
  firstn 12 (skipn (512 * i + 124) content).

Lemma skipn_add : forall A a b (l : list A), skipn a (skipn b l) = skipn (b + a) l.
Proof. intros A a b. induction b as [|b IH]; intros l; [reflexivity|]. destruct l; cbn [skipn Nat.add]; [apply skipn_nil|apply IH]. Qed.

Lemma field_at : forall content j, firstn 12 (skipn 124 (firstn 512 (skipn (512 * j) content))) = size_field content j.
Proof.
  intros content j. unfold size_field. rewrite skipn_firstn_comm, firstn_firstn, skipn_add. reflexivity.
Qed.

Lemma parse_size : forall b name n, parse_tar_header b = Ret (name, n) -> stoll8 (firstn 12 (skipn 124 b)) = Ret n.
Proof.
  intros b name n. unfold parse_tar_header. destruct (stoll8 (firstn 12 (skipn 124 b))) as [m|e|]; cbn [obind]; try discriminate.
  intros [= _ <-]. reflexivity.
Qed.

Lemma next_pos : forall j n b, 0 <= n < 8 ^ 12 -> block_bytes n = Ret b ->
  exists j', Z.of_nat (512 * j) + 512 + b = Z.of_nat (512 * j') /\ (j < j')%nat.
Proof.
  intros j n b Hn E. destruct (Z_le_gt_dec n size_limit) as [Hl|Hl].
  - rewrite block_bytes_ok in E by lia. assert (b = 512 * ((n + 511) / 512)) by congruence. subst b.
    exists (j + 1 + Z.to_nat ((n + 511) / 512))%nat. assert (Q : 0 <= (n + 511) / 512) by (apply Z.div_pos; lia).
    revert Q. generalize ((n + 511) / 512). intros q Q. split; [|lia].
    rewrite !Nat2Z.inj_mul, !Nat2Z.inj_add, Z2Nat.id by auto. change (Z.of_nat 512) with 512. change (Z.of_nat 1) with 1. ring.
  - rewrite block_bytes_ub in E by lia. discriminate E.
Qed.

Lemma size_field_length : forall content i, (length (size_field content i) <= 12)%nat.
Proof. intros. apply firstn_le_length. Qed.

Lemma tar_loop_ends : forall content, (forall i, ~ In 45 (size_field content i)) ->
  forall fuel j buf idx, (length content <= 512 * (j + fuel))%nat ->
  tar_loop (S fuel) content buf (Some (Z.of_nat (512 * j))) idx <> None.
Proof.
  intros content H fuel. induction fuel as [|fuel IH]; intros j buf idx L.
  - cbn [tar_loop]. destruct (Z.ltb_spec (Z.of_nat (512 * j)) (Z.of_nat (length content))); [lia|discriminate].
  - remember (S fuel) as f. cbn [tar_loop]. destruct (Z.of_nat (512 * j) <? Z.of_nat (length content)); [|discriminate].
    rewrite Nat2Z.id. set (b := firstn 512 (skipn (512 * j) content)).
    destruct (hd 0 b =? 0); [discriminate|]. destruct (parse_tar_header b) as [[name n]|e|] eqn:E; try discriminate.
    apply parse_size in E. unfold b in E. rewrite field_at in E.
    pose proof (stoll8_nonneg _ _ (H j) E) as Hn. pose proof (stoll8_bound _ _ (size_field_length content j) E) as Hb.
    destruct (block_bytes n) as [bb|e|] eqn:Eb; try discriminate.
    destruct (next_pos j n bb (conj Hn (proj2 Hb)) Eb) as (j' & Ej & Lj). rewrite Ej.
    destruct (Z.ltb_spec (Z.of_nat (512 * j')) 0); [lia|]. subst f. apply IH. lia.
Qed.

Lemma tar_loop_defined : forall content, (forall i n, stoll8 (size_field content i) = Ret n -> 0 <= n <= size_limit) ->
  forall fuel j buf idx, tar_loop fuel content buf (Some (Z.of_nat (512 * j))) idx <> Some Undef.
Proof.
  intros content H fuel. induction fuel as [|fuel IH]; intros j buf idx; [discriminate|].
  cbn [tar_loop]. destruct (Z.of_nat (512 * j) <? Z.of_nat (length content)); [|discriminate].
  rewrite Nat2Z.id. set (b := firstn 512 (skipn (512 * j) content)).
  destruct (hd 0 b =? 0); [discriminate|]. destruct (parse_tar_header b) as [[name n]|e|] eqn:E; try discriminate.
  - apply parse_size in E. unfold b in E. rewrite field_at in E. pose proof (H _ _ E) as Hn.
    assert (Hb : 0 <= n < 8 ^ 12) by (unfold size_limit in Hn; lia).
    destruct (block_bytes n) as [bb|e|] eqn:Eb; try discriminate.
    + destruct (next_pos j n bb Hb Eb) as (j' & Ej & Lj). rewrite Ej.
      destruct (Z.ltb_spec (Z.of_nat (512 * j')) 0); [lia|]. apply IH.
    + rewrite block_bytes_ok in Eb by auto. discriminate Eb.
  - unfold parse_tar_header in E. unfold stoll8 in E.
    destruct (skip_space _) as [|c l]; [discriminate|].
    destruct (c =? 45); [|destruct (c =? 43)]; [destruct l as [|d l]|destruct l as [|d l]|]; try discriminate;
      try (destruct (is_octal d); discriminate). destruct (is_octal c); discriminate.
Qed.
