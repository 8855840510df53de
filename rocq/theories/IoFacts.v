From Coq Require Import ZArith List Bool Lia ZifyBool.
From Verif Require Import Base BaseFacts Traits HashSpec Io IoSpec.
Import ListNotations.
Open Scope Z_scope.
Open Scope model_scope.

(** ** Words *)

Lemma bytes4 : forall a b c d, is_bytes [a; b; c; d] ->
  0 <= a < 256 /\ 0 <= b < 256 /\ 0 <= c < 256 /\ 0 <= d < 256.
Proof.
  intros a b c d H. unfold is_bytes in H. rewrite Forall_forall in H. repeat split; apply H; cbn; tauto.
Qed.

Lemma le4_range : forall x, is_bytes (le4 x).
Proof. intros x. unfold le4, is_bytes. repeat constructor; apply Z.mod_pos_bound; lia. Qed.

Lemma le4_of_le4 : forall a b c d, is_bytes [a; b; c; d] -> le4 (of_le4 [a; b; c; d]) = [a; b; c; d].
Proof.
  intros a b c d H. apply bytes4 in H. destruct H as (Ha & Hb & Hc & Hd).
  unfold le4, of_le4. cbn [nth]. change (2 ^ 8) with 256. change (2 ^ 16) with 65536. change (2 ^ 24) with 16777216.
  repeat f_equal; Z.div_mod_to_equations; lia.
Qed.

Lemma of_le4_le4 : forall x, 0 <= x < 2 ^ 32 -> of_le4 (le4 x) = x.
Proof.
  intros x H. unfold le4, of_le4. cbn [nth]. change (2 ^ 8) with 256. change (2 ^ 16) with 65536. change (2 ^ 24) with 16777216.
  change (2 ^ 32) with 4294967296 in H. Z.div_mod_to_equations. lia.
Qed.

Lemma be4_le4 : forall x, 0 <= x < 2 ^ 32 -> be4 x = rev (le4 x).
Proof.
  intros x H. unfold be4, le4. cbn [rev app]. f_equal. symmetry. apply Z.mod_small.
  change (2 ^ 32) with 4294967296 in H. change (2 ^ 24) with 16777216. Z.div_mod_to_equations. lia.
Qed.

Lemma le4_4 : forall x, exists a b c d, le4 x = [a; b; c; d].
Proof. intros x. do 4 eexists. reflexivity. Qed.

Lemma bytes_rev : forall l, is_bytes l -> is_bytes (rev l).
Proof.
  intros l H. unfold is_bytes in *. rewrite Forall_forall in *. intros z Hz. apply H. apply in_rev. auto.
Qed.

Lemma swapped_rev : forall x, byte_endian_swapped x = of_le4 (rev (le4 x)).
Proof. reflexivity. Qed.

Lemma swapped_bytes : forall x, 0 <= x < 2 ^ 32 -> le4 (byte_endian_swapped x) = be4 x.
Proof.
  intros x H. rewrite be4_le4, swapped_rev by auto. pose proof (bytes_rev _ (le4_range x)) as R.
  destruct (le4_4 x) as (a & b & c & d & E). rewrite E in *. apply (le4_of_le4 d c b a), R.
Qed.

Lemma swapped_word : forall a b c d, is_bytes [a; b; c; d] ->
  0 <= byte_endian_swapped (of_le4 [a; b; c; d]) < 2 ^ 32 /\ be4 (byte_endian_swapped (of_le4 [a; b; c; d])) = [a; b; c; d].
Proof.
  intros a b c d H. unfold byte_endian_swapped. rewrite le4_of_le4 by auto. cbn [nth].
  assert (H' : is_bytes [d; c; b; a]).
  { unfold is_bytes in *. rewrite Forall_forall in *. intros z Hz. apply H. cbn in *. tauto. }
  assert (R : 0 <= of_le4 [d; c; b; a] < 2 ^ 32).
  { unfold of_le4. cbn [nth]. apply bytes4 in H. lia. }
  split; auto. rewrite be4_le4 by auto. rewrite le4_of_le4 by auto. reflexivity.
Qed.

Lemma be4_swapped : forall x, 0 <= x < 2 ^ 32 -> byte_endian_swapped (of_le4 (be4 x)) = x.
Proof.
  intros x H. rewrite be4_le4, swapped_rev by auto. pose proof (bytes_rev _ (le4_range x)) as R.
  pose proof (of_le4_le4 x H) as Q. destruct (le4_4 x) as (a & b & c & d & E). rewrite E in *.
  change (rev [a; b; c; d]) with [d; c; b; a] in *. rewrite le4_of_le4 by auto. exact Q.
Qed.

Lemma length_be4s : forall ds, length (flat_map be4 ds) = (4 * length ds)%nat.
Proof. intros ds. induction ds as [|d ds IH]; [reflexivity|]. cbn [flat_map]. rewrite app_length, IH. cbn. lia. Qed.

Lemma length_header : forall code ds, length (idx_header code ds) = (4 + 4 * length ds)%nat.
Proof. intros. unfold idx_header. rewrite app_length, length_be4s. reflexivity. Qed.

(** The words of a buffer of [4 r] bytes. *)
Lemma words_seq : forall V (ds pre : list Z) (s : st V) (tl : list Z) k,
  length pre = (4 * k)%nat ->
  words (pre ++ flat_map be4 ds ++ tl) (seq k (length ds)) s = Ok (map (fun d => of_le4 (be4 d)) ds) s.
Proof.
  intros V ds. induction ds as [|d ds IH]; intros pre s tl k L; [reflexivity|].
  cbn [length seq words flat_map map].
  assert (E : word_at (V := V) (pre ++ (be4 d ++ flat_map be4 ds) ++ tl) k s = Ok (of_le4 (be4 d)) s).
  { unfold word_at. rewrite skipn_app, L, Nat.sub_diag. rewrite <- L, skipn_all. reflexivity. }
  rewrite (bind_ok _ _ _ _ _ E).
  pose proof (IH (pre ++ be4 d) s tl (S k)) as IHk. rewrite <- !app_assoc in IHk.
  rewrite <- app_assoc. erewrite bind_ok; [|apply IHk; rewrite app_length; cbn; lia]. reflexivity.
Qed.

(** Every complete buffer is the encoding of some dimensions. *)
Lemma buffer_dims : forall r l, is_bytes l -> length l = (4 * r)%nat ->
  exists ds, length ds = r /\ u32_dims ds /\ l = flat_map be4 ds.
Proof.
  intros r. induction r as [|r IH]; intros l B L.
  - destruct l; [|cbn in L; lia]. exists []. repeat split. constructor.
  - destruct l as [|a [|b [|c [|d l]]]]; try (cbn in L; lia).
    assert (B4 : is_bytes [a; b; c; d]) by (unfold is_bytes in *; rewrite Forall_forall in *; intros z Hz; apply B; cbn in *; tauto).
    destruct (IH l) as (ds & Ls & U & ->).
    { unfold is_bytes in *. rewrite Forall_forall in *. intros z Hz. apply B. cbn. tauto. }
    { cbn in L. lia. }
    destruct (swapped_word a b c d B4) as [R E].
    exists (byte_endian_swapped (of_le4 [a; b; c; d]) :: ds). split; [cbn; lia|]. split.
    + constructor; auto.
    + cbn [flat_map]. rewrite E. reflexivity.
Qed.

Lemma be4_inj : forall ds ds', u32_dims ds -> u32_dims ds' -> flat_map be4 ds = flat_map be4 ds' -> ds = ds'.
Proof.
  intros ds. induction ds as [|d ds IH]; intros [|d' ds'] U U' E; [reflexivity|discriminate E|discriminate E|].
  inversion U; inversion U'; subst. cbn [flat_map] in E.
  assert (E1 : be4 d = be4 d') by (apply (f_equal (firstn 4)) in E; exact E).
  assert (E2 : flat_map be4 ds = flat_map be4 ds') by (apply (f_equal (skipn 4)) in E; exact E).
  f_equal; [|apply IH; auto].
  rewrite <- (be4_swapped d), <- (be4_swapped d') by auto. rewrite E1. reflexivity.
Qed.

(** Comparison of the dimensions. *)
Lemma check_dims : forall V (ws ds : list Z) (s : st V), length ws = length ds ->
  for_ (combine ws ds) (fun p => contract (fst p =? snd p)) s =
  if list_eq_dec Z.eq_dec ws ds then Ok tt s else Throw RuntimeError s.
Proof.
  intros V ws. induction ws as [|w ws IH]; intros [|d ds] s L; try discriminate L; [reflexivity|].
  cbn [combine for_ fst snd]. unfold contract at 1. destruct (Z.eqb_spec w d) as [->|N].
  - change ((ret tt ;;; for_ (combine ws ds) (fun p => contract (fst p =? snd p))) s) with
      (for_ (combine ws ds) (fun p => contract (fst p =? snd p)) s).
    rewrite IH by (cbn in L; lia).
    destruct (list_eq_dec Z.eq_dec ws ds), (list_eq_dec Z.eq_dec (d :: ws) (d :: ds)); congruence.
  - destruct (list_eq_dec Z.eq_dec (w :: ws) (d :: ds)); [congruence|]. reflexivity.
Qed.

Lemma firstn_app_exact : forall A (a b : list A) n, length a = n -> firstn n (a ++ b) = a.
Proof. intros A a b n <-. rewrite firstn_app, Nat.sub_diag, firstn_all, app_nil_r. reflexivity. Qed.
Lemma skipn_app_exact : forall A (a b : list A) n, length a = n -> skipn n (a ++ b) = b.
Proof. intros A a b n <-. rewrite skipn_app, Nat.sub_diag, skipn_all. reflexivity. Qed.


(** ** Reading *)

Ltac simpl_m := repeat (rewrite ?bind_ret_l, ?Z.eqb_refl; cbv beta iota).

Section Read.
  Context {V T : Type} (dt : dtype V T) (cd : codec T) (code : Z).

  Lemma patch_nil : forall c, (1 <= csize cd)%nat -> patch dt cd [] c = c.
  Proof. intros c H. unfold patch. cbn [length]. destruct (Nat.eqb_spec 0 (csize cd)); [lia|]. reflexivity. Qed.

  Lemma load_bytes_cells : forall y l s, (1 <= csize cd)%nat -> 0 <= size y -> mapped s y ->
    exists s', load_bytes dt cd y l s = Ok tt s' /\ nextb s' = nextb s /\
      (forall o, 0 <= o < size y -> cells s' (daddr y o) = patch dt cd (chunk cd l o) (cells s (daddr y o))) /\
      (forall p, ~ foot y p -> cells s' p = cells s p).
  Proof.
    intros y l s Hc Hs Hm.
    destruct (for_range_inv (size y) (fun i => patch_at dt cd (daddr y i) (chunk cd l i))
      (fun k s' => nextb s' = nextb s /\
         (forall o, 0 <= o < size y -> cells s' (daddr y o) =
            if o <? k then patch dt cd (chunk cd l o) (cells s (daddr y o)) else cells s (daddr y o)) /\
         (forall p, ~ foot y p -> cells s' p = cells s p)) s) as (s' & E & N & C & F); auto.
    - split; auto. split; auto. intros o Ho. destruct (Z.ltb_spec o 0); [lia|reflexivity].
    - intros k s' Hk (N & C & F). unfold patch_at. pose proof (C k Hk) as Ck. rewrite Z.ltb_irrefl in Ck. rewrite Ck.
      pose proof (Hm (daddr y k) (daddr_foot y k Hk)) as Mk.
      assert (St : forall s'', nextb s'' = nextb s' ->
        (forall q, cells s'' q = if loc_eqb q (daddr y k) then patch dt cd (chunk cd l k) (cells s (daddr y k)) else cells s' q) ->
        nextb s'' = nextb s /\
         (forall o, 0 <= o < size y -> cells s'' (daddr y o) =
            if o <? k + 1 then patch dt cd (chunk cd l o) (cells s (daddr y o)) else cells s (daddr y o)) /\
         (forall p, ~ foot y p -> cells s'' p = cells s p)).
      { intros s'' N' C'. split; [congruence|]. split.
        - intros o Ho. rewrite C'. destruct (loc_eqb_spec (daddr y o) (daddr y k)) as [Eq|Ne].
          + injection Eq as Eq. assert (o = k) by lia. subst o. destruct (Z.ltb_spec k (k + 1)); [reflexivity|lia].
          + rewrite C by auto. assert (o <> k) by congruence. destruct (Z.ltb_spec o k), (Z.ltb_spec o (k + 1)); try lia; reflexivity.
        - intros p Hp. rewrite C'. destruct (loc_eqb_spec p (daddr y k)) as [->|]; [|apply F; auto].
          exfalso. apply Hp, daddr_foot; auto. }
      destruct (chunk cd l k) as [|b ch] eqn:Ech.
      + exists s'. split; [reflexivity|]. apply St; auto. intros q.
        destruct (loc_eqb_spec q (daddr y k)) as [->|]; [|reflexivity]. rewrite patch_nil by auto. exact Ck.
      + destruct (cells s (daddr y k)) as [| |v] eqn:Ec; [congruence| |]; (eexists; split; [reflexivity|]; apply St; reflexivity).
    - exists s'. split; auto. split; auto. split; auto. intros o Ho. rewrite C by auto.
      destruct (Z.ltb_spec o (size y)); [reflexivity|lia].
  Qed.

  Lemma u32_nonneg : forall t, u32_dims (tdims t) -> dims_ok t.
  Proof. intros t H. unfold dims_ok, u32_dims in *. eapply Forall_impl; [|exact H]. cbn. lia. Qed.

  Lemma map_swapped : forall ds, u32_dims ds -> map byte_endian_swapped (map (fun d => of_le4 (be4 d)) ds) = ds.
  Proof.
    intros ds H. rewrite map_map. rewrite <- (map_id ds) at 2. apply map_ext_in. intros d Hd.
    apply be4_swapped. unfold u32_dims in H. rewrite Forall_forall in H. auto.
  Qed.

  (** After the magic number. *)
  Lemma deserialize_dims : forall y ds data s, length ds = length (tdims y) -> u32_dims ds ->
    deserialize dt cd code y (mkstream ([0; 0; code; Z.of_nat (length (tdims y))] ++ flat_map be4 ds ++ data) true) s =
    if list_eq_dec Z.eq_dec ds (tdims y)
    then load_bytes dt cd y (firstn (csize cd * Z.to_nat (size y)) data) s
    else Throw RuntimeError s.
  Proof.
    intros y ds data s L U. unfold deserialize, sread. cbn [good rest app length firstn skipn Nat.leb].
    unfold byte_at, contract. cbn [nth_error]. simpl_m.
    rewrite firstn_app_exact, skipn_app_exact by (rewrite length_be4s; lia).
    erewrite bind_ok.
    2:{ pose proof (words_seq V ds [] s [] 0 eq_refl) as W. cbn [app] in W. rewrite app_nil_r, L in W. exact W. }
    rewrite map_swapped by auto. pose proof (check_dims V ds (tdims y) s L) as CD. unfold contract in CD.
    unfold bind. rewrite CD. destruct (list_eq_dec Z.eq_dec ds (tdims y)); [|reflexivity].
    replace (4 * length (tdims y) <=? length (flat_map be4 ds ++ data))%nat with true; [reflexivity|].
    symmetry. apply Nat.leb_le. rewrite app_length, length_be4s. lia.
  Qed.

  Lemma deserialize_ok : forall y data s, u32_dims (tdims y) ->
    deserialize dt cd code y (mkstream (idx_header code (tdims y) ++ data) true) s =
    load_bytes dt cd y (firstn (csize cd * Z.to_nat (size y)) data) s.
  Proof.
    intros y data s U. unfold idx_header. rewrite <- app_assoc, deserialize_dims by auto.
    destruct (list_eq_dec Z.eq_dec (tdims y) (tdims y)); congruence.
  Qed.

  Lemma deserialize_bad : forall y content s, u32_dims (tdims y) -> is_bytes content ->
    (4 + 4 * length (tdims y) <= length content)%nat ->
    firstn (4 + 4 * length (tdims y)) content <> idx_header code (tdims y) ->
    deserialize dt cd code y (mkstream content true) s = Throw RuntimeError s.
  Proof.
    intros y content s U B L N.
    destruct content as [|a [|b [|c [|d l]]]]; try (cbn in L; lia).
    assert (Bl : is_bytes l) by (unfold is_bytes in *; rewrite Forall_forall in *; intros z Hz; apply B; cbn; tauto).
    destruct (buffer_dims (length (tdims y)) (firstn (4 * length (tdims y)) l)) as (ds & Ls & Us & E).
    { unfold is_bytes in *. rewrite Forall_forall in *. intros z Hz. apply Bl. rewrite <- (firstn_skipn (4 * length (tdims y)) l).
      apply in_or_app. auto. }
    { apply firstn_length_le. cbn in L. lia. }
    destruct (Z.eq_dec a 0) as [->|Na].
    2:{ unfold deserialize, sread. cbn [good rest firstn]. unfold byte_at, contract. cbn [nth_error]. simpl_m.
        destruct (Z.eqb_spec a 0); [congruence|]. reflexivity. }
    destruct (Z.eq_dec b 0) as [->|Nb].
    2:{ unfold deserialize, sread. cbn [good rest firstn]. unfold byte_at, contract. cbn [nth_error]. simpl_m.
        destruct (Z.eqb_spec b 0); [congruence|]. reflexivity. }
    destruct (Z.eq_dec c code) as [->|Nc].
    2:{ unfold deserialize, sread. cbn [good rest firstn]. unfold byte_at, contract. cbn [nth_error]. simpl_m.
        destruct (Z.eqb_spec c code); [congruence|]. reflexivity. }
    destruct (Z.eq_dec d (Z.of_nat (length (tdims y)))) as [->|Nd].
    2:{ unfold deserialize, sread. cbn [good rest firstn]. unfold byte_at, contract. cbn [nth_error]. simpl_m.
        destruct (Z.eqb_spec d (Z.of_nat (length (tdims y)))); [congruence|]. reflexivity. }
    pose proof (deserialize_dims y ds (skipn (4 * length (tdims y)) l) s Ls Us) as D.
    rewrite <- E, firstn_skipn in D. cbn [app] in D. rewrite D.
    destruct (list_eq_dec Z.eq_dec ds (tdims y)) as [->|]; [|reflexivity].
    exfalso. apply N. change (4 + 4 * length (tdims y))%nat with (S (S (S (S (4 * length (tdims y)))))).
    cbn [firstn]. rewrite E. reflexivity.
  Qed.

  Lemma chunk_flat : forall (f : list Z -> T) (ixs : list (list Z)) tl k o, codec_ok cd ->
    0 <= o < Z.of_nat (length ixs) -> (csize cd * length ixs <= k)%nat ->
    chunk cd (firstn k (flat_map (fun ix => enc cd (f ix)) ixs ++ tl)) o = enc cd (f (nth (Z.to_nat o) ixs [])).
  Proof.
    intros f ixs tl k o (C1 & C2) Ho Hk. unfold chunk.
    assert (Ln : (Z.to_nat o < length ixs)%nat) by lia. clear Ho. revert k Hk Ln. generalize (Z.to_nat o) as n. clear o.
    induction ixs as [|ix ixs IH]; intros n k Hk Ln; [cbn in Ln; lia|]. cbn [flat_map nth].
    rewrite <- app_assoc.
    assert (Le : length (enc cd (f ix)) = csize cd) by apply C2.
    rewrite firstn_app, Le. rewrite (firstn_all2 (enc cd (f ix))) by (rewrite Le; cbn [length] in Hk; lia).
    destruct n as [|n].
    - cbn [Nat.mul skipn]. apply firstn_app_exact. auto.
    - replace (S n * csize cd)%nat with (length (enc cd (f ix)) + n * csize cd)%nat by (rewrite Le; lia).
      rewrite skipn_app, skipn_all2 by lia. rewrite Nat.add_comm, Nat.add_sub. cbn [app].
      apply IH; [cbn [length] in Hk; lia|cbn [length] in Ln; lia].
  Qed.

  (** Reading a complete idx file. *)
  Lemma deserialize_file : forall y X tl s, codec_ok cd -> u32_dims (tdims y) -> mapped s y ->
    writes dt (deserialize dt cd code y (mkstream (idx_file cd code (tdims y) X ++ tl) true)) s y X.
  Proof.
    intros y X tl s C U Hm. pose proof (u32_nonneg y U) as D.
    pose proof (prod_nonneg _ D) as P. destruct (load_bytes_cells y (firstn (csize cd * Z.to_nat (size y))
      (flat_map (fun ix => enc cd (X ix)) (indices (tdims y)) ++ tl)) s) as (s' & E & N & G & F); auto; [apply C|].
    exists s'. split.
    - unfold idx_file. rewrite <- app_assoc, deserialize_ok by auto. exact E.
    - assert (Li : length (indices (tdims y)) = Z.to_nat (size y)).
      { rewrite indices_expand, map_length, length_zrange by auto. reflexivity. }
      split; [|split; [lia|exact F]].
      intros ix Hix. unfold addr. pose proof (offset_bound _ _ Hix) as Ho. rewrite G by auto.
      rewrite chunk_flat by (auto; rewrite ?Li; unfold size in *; lia).
      unfold patch. destruct C as [C1 C2]. destruct (C2 (X (nth (Z.to_nat (offset (tdims y) ix)) (indices (tdims y)) []))) as (Q1 & _ & Q2). rewrite Q1, Q2.
      rewrite Nat.eqb_refl. do 3 f_equal. 
      rewrite indices_expand by auto. rewrite nth_indep with (d' := expand (tdims y) 0) by (rewrite map_length, length_zrange; lia).
      rewrite map_nth. unfold zrange. change 0 with (Z.of_nat 0). rewrite map_nth. rewrite seq_nth by lia.
      cbn [Nat.add]. rewrite Z2Nat.id by lia. apply expand_offset. auto.
  Qed.
End Read.
