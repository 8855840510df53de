(** Properties C53 - C58, C71: idx files and tar archives. *)
From Coq Require Import ZArith List Bool Lia ZifyBool.
From Verif Require Import Base BaseFacts Traits HashSpec Io IoSpec IoFacts TarFacts Demo.
Import ListNotations.
Open Scope Z_scope.
Open Scope model_scope.

(** Little-endian sixteen-bit integers, the element type of the examples. *)
Definition u16 : codec Z :=
  mkcodec 2 (fun v => [v mod 256; v / 256 mod 256]) (fun l => nth 0 l 0 + 256 * nth 1 l 0).

(** *** C53: round trip. *)
Theorem C53_file : forall V T (dt : dtype V T) (cd : codec T) code can_open fs name x X s,
  u32_dims (tdims x) -> holds dt s x X -> can_open name = true ->
  exists fs', op_writefile dt cd code can_open fs name x s = Ok fs' s /\
    fs' name = Some (idx_file cd code (tdims x) X) /\ (forall n, n <> name -> fs' n = fs n).
Proof.
  intros V T dt cd code can_open fs name x X s U HX Ho. pose proof (u32_nonneg x U) as D. unfold op_writefile. rewrite Ho.
  assert (E : serialize dt cd code x s = Ok (idx_file cd code (tdims x) X) s).
  { unfold serialize. erewrite bind_ok.
    2:{ apply foldM_pure with (g := fun bs o => bs ++ enc cd (X (expand (tdims x) o))). intros l o Hoo. apply in_zrange in Hoo.
        rewrite (bind_ok _ _ _ _ _ (load_ok dt s (daddr x o) _ (holds_daddr dt s x X o D HX Hoo))). reflexivity. }
    unfold ret. f_equal. unfold idx_file, idx_header. rewrite <- !app_assoc. do 2 f_equal.
    - unfold u32_dims in U. induction U as [|d ds Hd _ IH]; [reflexivity|]. cbn [flat_map]. rewrite IH, swapped_bytes by auto. reflexivity.
    - rewrite indices_expand by auto. change (prod (tdims x)) with (size x).
      assert (G : forall l acc, fold_left (fun bs o => bs ++ enc cd (X (expand (tdims x) o))) l acc =
        acc ++ flat_map (fun ix => enc cd (X ix)) (map (expand (tdims x)) l)).
      { intros l. induction l as [|o l IH]; intros acc; cbn [fold_left map flat_map]; [symmetry; apply app_nil_r|].
        rewrite IH, app_assoc. reflexivity. }
      apply G. }
  eexists. split; [rewrite (bind_ok _ _ _ _ _ E); reflexivity|]. cbn beta. split.
  - destruct (list_eq_dec Z.eq_dec name name); congruence.
  - intros n Hn. destruct (list_eq_dec Z.eq_dec n name); congruence.
Qed.

Theorem C53_length : forall T (cd : codec T) code ds X, codec_ok cd -> Forall (fun d => 0 <= d) ds ->
  Z.of_nat (length (idx_file cd code ds X)) = 4 + 4 * Z.of_nat (length ds) + Z.of_nat (csize cd) * prod ds.
Proof.
  intros T cd code ds X [_ C] D. unfold idx_file. rewrite app_length, length_header.
  assert (E : forall l, length (flat_map (fun ix => enc cd (X ix)) l) = (csize cd * length l)%nat).
  { intros l. induction l as [|ix l IH]; cbn [flat_map length]; [lia|]. rewrite app_length, IH. destruct (C (X ix)) as (-> & _). lia. }
  rewrite E, indices_expand, map_length, length_zrange by auto. pose proof (prod_nonneg ds D). nia.
Qed.

Theorem C53_bytes : forall T (cd : codec T) code ds X, codec_ok cd -> u32_dims ds ->
  0 <= code < 256 -> (length ds < 256)%nat -> is_bytes (idx_file cd code ds X).
Proof.
  intros T cd code ds X [_ C] U Hc Hr. unfold idx_file, idx_header, is_bytes. rewrite !Forall_app. split; [split|].
  - repeat constructor; lia.
  - apply Forall_flat_map. eapply Forall_impl; [|exact U]. cbn beta. intros d Hd. rewrite be4_le4 by auto. apply bytes_rev, le4_range.
  - apply Forall_flat_map. apply Forall_forall. intros ix _. apply C.
Qed.

Theorem C53_roundtrip : forall V T (dt : dtype V T) (cd : codec T) code can_open fs name x y X s,
  codec_ok cd -> u32_dims (tdims x) -> tdims y = tdims x -> holds dt s x X -> mapped s y -> can_open name = true ->
  exists fs', op_writefile dt cd code can_open fs name x s = Ok fs' s /\
    writes dt (op_readfile dt cd code fs' name y) s y X.
Proof.
  intros V T dt cd code can_open fs name x y X s C U Ed HX Hm Ho.
  destruct (C53_file V T dt cd code can_open fs name x X s U HX Ho) as (fs' & E & F & _).
  exists fs'. split; auto. unfold op_readfile. rewrite F, <- Ed.
  pose proof (deserialize_file dt cd code y X [] s C) as R. rewrite app_nil_r in R. apply R; auto. rewrite Ed. auto.
Qed.

(** A file that cannot be opened. *)
Theorem C53_open : forall V T (dt : dtype V T) (cd : codec T) code can_open fs name x s,
  (can_open name = false -> op_writefile dt cd code can_open fs name x s = Throw RuntimeError s) /\
  (fs name = None -> op_readfile dt cd code fs name x s = Throw RuntimeError s).
Proof.
  intros. split; intros H.
  - unfold op_writefile. rewrite H. reflexivity.
  - unfold op_readfile. rewrite H. reflexivity.
Qed.

Example C53_example :
  let s := demo [[258; 3; 65535; 4; 5; 6]; [0; 0; 0; 0; 0; 0]] in
  match op_writefile zt u16 11 (fun _ => true) (fun _ => None) [102] (T_ 0 [2; 3]) s with
  | Ok fs _ => fs [102] = Some [0; 0; 11; 2;  0; 0; 0; 2;  0; 0; 0; 3;  2; 1;  3; 0;  255; 255;  4; 0;  5; 0;  6; 0] /\
               run (op_readfile zt u16 11 fs [102] (T_ 1 [2; 3])) s (T_ 1 [2; 3]) = Some (inits [258; 3; 65535; 4; 5; 6])
  | _ => False
  end.
Proof. vm_compute. auto. Qed.

(** *** C54: the header is validated. *)
Theorem C54_mismatch : forall V T (dt : dtype V T) (cd : codec T) code fs name content y s,
  fs name = Some content -> is_bytes content -> u32_dims (tdims y) ->
  (length (idx_header code (tdims y)) <= length content)%nat ->
  firstn (length (idx_header code (tdims y))) content <> idx_header code (tdims y) ->
  op_readfile dt cd code fs name y s = Throw RuntimeError s.
Proof.
  intros V T dt cd code fs name content y s F B U L N. rewrite length_header in L, N. unfold op_readfile. rewrite F.
  apply deserialize_bad; auto.
Qed.

Theorem C54_accept : forall V T (dt : dtype V T) (cd : codec T) code fs name data y s,
  fs name = Some (idx_header code (tdims y) ++ data) -> codec_ok cd -> u32_dims (tdims y) -> mapped s y ->
  exists s', op_readfile dt cd code fs name y s = Ok tt s'.
Proof.
  intros V T dt cd code fs name data y s F C U Hm. unfold op_readfile. rewrite F, deserialize_ok by auto.
  edestruct (load_bytes_cells dt cd y) as (s' & E & _); [apply C|apply prod_nonneg, u32_nonneg; auto|exact Hm|]. exists s'. exact E.
Qed.

(** In particular a file written from a tensor of another type code or shape. *)
Theorem C54_other : forall V T (dt : dtype V T) T' (cd : codec T) (cd' : codec T') code code' fs name ds X y s,
  fs name = Some (idx_file cd' code' ds X) -> codec_ok cd' ->
  u32_dims ds -> u32_dims (tdims y) -> length ds = length (tdims y) -> (length ds < 256)%nat -> 0 <= code' < 256 ->
  code' <> code \/ ds <> tdims y ->
  op_readfile dt cd code fs name y s = Throw RuntimeError s.
Proof.
  intros V T dt T' cd cd' code code' fs name ds X y s F C' U Uy L R Hc N.
  assert (Lh : length (idx_header code' ds) = length (idx_header code (tdims y))) by (rewrite !length_header; lia).
  eapply C54_mismatch; eauto.
  - apply C53_bytes; auto.
  - unfold idx_file. rewrite app_length, <- Lh. lia.
  - unfold idx_file. rewrite firstn_app_exact by auto. unfold idx_header. intros E.
    apply (f_equal (fun l => (nth 2 l 0, skipn 4 l))) in E. cbn [app nth skipn] in E. injection E as E1 E2.
    destruct N as [N|N]; [congruence|]. apply N. apply be4_inj; auto.
Qed.

Example C54_example :
  let s := demo [[7; 8]] in
  let fs := fun l => fun _ : list Z => Some l in
  op_readfile zt u16 11 (fs [0; 0; 11; 1; 0; 0; 0; 2; 1; 0; 2; 0]) [102] (T_ 0 [2]) s <> Throw RuntimeError s /\
  (* first magic byte, type, rank, a dimension in its last and in its first byte *)
  op_readfile zt u16 11 (fs [1; 0; 11; 1; 0; 0; 0; 2; 1; 0; 2; 0]) [102] (T_ 0 [2]) s = Throw RuntimeError s /\
  op_readfile zt u16 11 (fs [0; 0; 12; 1; 0; 0; 0; 2; 1; 0; 2; 0]) [102] (T_ 0 [2]) s = Throw RuntimeError s /\
  op_readfile zt u16 11 (fs [0; 0; 11; 2; 0; 0; 0; 2; 1; 0; 2; 0]) [102] (T_ 0 [2]) s = Throw RuntimeError s /\
  op_readfile zt u16 11 (fs [0; 0; 11; 1; 0; 0; 0; 3; 1; 0; 2; 0]) [102] (T_ 0 [2]) s = Throw RuntimeError s /\
  op_readfile zt u16 11 (fs [0; 0; 11; 1; 1; 0; 0; 2; 1; 0; 2; 0]) [102] (T_ 0 [2]) s = Throw RuntimeError s.
Proof. vm_compute. repeat split; discriminate. Qed.

(** *** C55: truncated files. *)

(** With a correct header every file is accepted; element [o] is read when all its
    bytes are there, keeps its value when none is, and is a mixture otherwise. *)
Theorem C55_data : forall V T (dt : dtype V T) (cd : codec T) code fs name data y s,
  fs name = Some (idx_header code (tdims y) ++ data) -> codec_ok cd -> u32_dims (tdims y) -> mapped s y ->
  let sz := csize cd in
  exists s', op_readfile dt cd code fs name y s = Ok tt s' /\ only_changes y s s' /\
    forall o, 0 <= o < size y ->
      let got := firstn sz (skipn (Z.to_nat o * sz) data) in
      ((Z.to_nat o * sz + sz <= length data)%nat -> cells s' (daddr y o) = Init (emb dt (dec cd got))) /\
      ((length data <= Z.to_nat o * sz)%nat -> cells s' (daddr y o) = cells s (daddr y o)) /\
      (forall v, (Z.to_nat o * sz < length data < Z.to_nat o * sz + sz)%nat -> cells s (daddr y o) = Init (emb dt v) ->
        cells s' (daddr y o) = Init (emb dt (dec cd (got ++ skipn (length got) (enc cd v))))).
Proof.
  intros V T dt cd code fs name data y s F C U Hm sz. pose proof (u32_nonneg y U) as D.
  edestruct (load_bytes_cells dt cd y) as (s' & E & N & G & K); [apply C|apply prod_nonneg, D|exact Hm|].
  exists s'. split; [unfold op_readfile; rewrite F, deserialize_ok by auto; exact E|]. split; [split; [lia|exact K]|].
  intros o Ho got. rewrite G by auto.
  assert (Ch : chunk cd (firstn (csize cd * Z.to_nat (size y)) data) o = got).
  { unfold chunk, got, sz. rewrite skipn_firstn_comm, firstn_firstn. f_equal. nia. }
  rewrite Ch. assert (Lg : length got = Nat.min sz (length data - Z.to_nat o * sz)).
  { unfold got. rewrite firstn_length, skipn_length. reflexivity. }
  destruct C as [C1 C2]. fold sz in C1. unfold patch. fold sz. repeat split.
  - intros L. destruct (Nat.eqb_spec (length got) sz); [reflexivity|lia].
  - intros L. destruct (Nat.eqb_spec (length got) sz); [lia|]. destruct got; [reflexivity|cbn [length] in Lg; lia].
  - intros v L Ev. destruct (Nat.eqb_spec (length got) sz); [lia|]. destruct got as [|b g]; [cbn [length] in Lg; lia|].
    rewrite Ev, prj_emb. reflexivity.
Qed.

(** So the destination is filled from the file exactly when the data is complete. *)
Theorem C55_complete : forall V T (dt : dtype V T) (cd : codec T) code fs name X tl y s,
  fs name = Some (idx_file cd code (tdims y) X ++ tl) -> codec_ok cd -> u32_dims (tdims y) -> mapped s y ->
  writes dt (op_readfile dt cd code fs name y) s y X.
Proof.
  intros V T dt cd code fs name X tl y s F C U Hm. unfold op_readfile. rewrite F. apply deserialize_file; auto.
Qed.

Lemma words_short : forall V n k l (s : st V), (1 <= n)%nat -> (length l < 4 * (k + n))%nat -> words l (seq k n) s = UB.
Proof.
  intros V n. induction n as [|n IH]; intros k l s H L; [lia|]. cbn [seq words].
  unfold bind at 1, word_at. destruct (Nat.eqb_spec (length (firstn 4 (skipn (4 * k) l))) 4) as [E|E]; [|reflexivity].
  cbn [ret]. unfold ret. destruct n as [|n].
  - exfalso. rewrite firstn_length, skipn_length in E. lia.
  - unfold bind. rewrite IH by lia. reflexivity.
Qed.

(** A proper prefix of the right header: bytes that were never read are used. *)
Theorem C55_short_header : forall V T (dt : dtype V T) (cd : codec T) code fs name k y s,
  fs name = Some (firstn k (idx_header code (tdims y))) -> (k < length (idx_header code (tdims y)))%nat ->
  op_readfile dt cd code fs name y s = UB.
Proof.
  intros V T dt cd code fs name k y s F L. unfold op_readfile. rewrite F. rewrite length_header in L.
  unfold idx_header. unfold deserialize, sread. cbn [good rest].
  destruct k as [|[|[|[|k]]]]; try reflexivity.
  cbn [app firstn]. unfold byte_at, contract. cbn [nth_error skipn length]. simpl_m.
  set (l := firstn k (flat_map be4 (tdims y))).
  assert (Ll : (length l < 4 * length (tdims y))%nat) by (unfold l; rewrite firstn_length; lia).
  cbn [Nat.leb]. simpl_m. unfold bind at 1. rewrite words_short; [reflexivity|lia|].
  rewrite firstn_length. lia.
Qed.

(** Truncated data goes unnoticed. *)
Theorem C55_refuted : exists (fs : filesystem) (name : list Z) (y : tensor) (s s' : st Z),
  op_readfile zt u16 11 fs name y s = Ok tt s' /\ dump s' y = inits [257; 2; 9] /\ dump s y = inits [7; 8; 9].
Proof.
  exists (fun _ => Some [0; 0; 11; 1; 0; 0; 0; 3; 1; 1; 2]), [102], (T_ 0 [3]), (demo [[7; 8; 9]]).
  eexists. split; [reflexivity|]. vm_compute. auto.
Qed.

(** *** C56: archives. *)
Lemma readtar_member : forall {V T} (dt : dtype V T) (cd : codec T) code fs filename l m r k fuel y s,
  fs filename = Some (archive (l ++ m :: r) k) -> Forall member_ok (l ++ m :: r) -> (length (l ++ m :: r) < fuel)%nat ->
  ~ In (m_name m) (map m_name r) ->
  op_readtar dt cd code fuel fs filename (m_name m) y s =
  Some (deserialize dt cd code y (mkstream (m_data m ++ repeat 0 (pad512 (length (m_data m))) ++ archive r k) true) s).
Proof.
  intros V T dt cd code fs filename l m r k fuel y s F W Hf N.
  unfold op_readtar, make_tar_index. rewrite F. rewrite archive_length by auto. cbn [Z.eqb].
  rewrite (tar_loop_members (l ++ m :: r) k fuel W Hf).
  unfold lift at 1. unfold bind at 1. unfold ret at 1. unfold bind at 1. rewrite tar_find_last by auto. unfold lift, ret. cbn [th_off].
  assert (Wm : member_ok m) by (rewrite Forall_forall in W; apply W, in_or_app; right; left; reflexivity).
  destruct Wm as (_ & _ & Hl & Hmid & Ht & _).
  assert (Es : skipn (Z.to_nat (0 + Z.of_nat (length (flat_map member_bytes l)) + 512)) (archive (l ++ m :: r) k) =
    m_data m ++ repeat 0 (pad512 (length (m_data m))) ++ archive r k).
  { unfold archive. rewrite flat_map_app. cbn [flat_map].
    change (member_bytes m) with (member_header (m_name m) (m_mid m) (m_tail m) (Z.of_nat (length (m_data m))) ++
      m_data m ++ repeat 0 (pad512 (length (m_data m)))). rewrite <- !app_assoc.
    rewrite (app_assoc (flat_map member_bytes l)). rewrite skipn_app_exact; [reflexivity|].
    rewrite app_length, header_length by auto. lia. }
  rewrite Es. replace (0 <=? 0 + Z.of_nat (length (flat_map member_bytes l)) + 512) with true by lia. reflexivity.
Qed.

Theorem C56_found : forall V T (dt : dtype V T) (cd : codec T) code fs filename l m r k fuel X y s,
  fs filename = Some (archive (l ++ m :: r) k) -> Forall member_ok (l ++ m :: r) -> (length (l ++ m :: r) < fuel)%nat ->
  ~ In (m_name m) (map m_name r) -> m_data m = idx_file cd code (tdims y) X ->
  codec_ok cd -> u32_dims (tdims y) -> mapped s y ->
  exists s', op_readtar dt cd code fuel fs filename (m_name m) y s = Some (Ok tt s') /\ holds dt s' y X /\ only_changes y s s'.
Proof.
  intros V T dt cd code fs filename l m r k fuel X y s F W Hf N Ed C U Hm.
  rewrite (readtar_member dt cd code fs filename l m r k fuel y s F W Hf N), Ed.
  destruct (deserialize_file dt cd code y X (repeat 0 (pad512 (length (idx_file cd code (tdims y) X))) ++ archive r k) s C U Hm)
    as (s' & E & H & O).
  exists s'. split; auto. rewrite E. reflexivity.
Qed.

Theorem C56_unknown : forall V T (dt : dtype V T) (cd : codec T) code fs filename ms k fuel name y s,
  fs filename = Some (archive ms k) -> Forall member_ok ms -> (length ms < fuel)%nat -> ~ In name (map m_name ms) ->
  op_readtar dt cd code fuel fs filename name y s = Some (Throw InvalidArgument s).
Proof.
  intros V T dt cd code fs filename ms k fuel name y s F W Hf N.
  unfold op_readtar, make_tar_index. rewrite F. rewrite archive_length by auto. cbn [Z.eqb].
  rewrite (tar_loop_members ms k fuel W Hf).
  unfold lift at 1. unfold bind at 1. cbv beta iota. unfold bind at 1. unfold ret at 1. rewrite tar_find_unknown by auto. reflexivity.
Qed.

Theorem C56_open : forall V T (dt : dtype V T) (cd : codec T) code fs filename fuel name y s,
  (fs filename = None \/ exists c, fs filename = Some c /\ Z.of_nat (length c) mod 512 <> 0) ->
  op_readtar dt cd code fuel fs filename name y s = Some (Throw RuntimeError s).
Proof.
  intros V T dt cd code fs filename fuel name y s [F|(c & F & N)]; unfold op_readtar, make_tar_index; rewrite F; [reflexivity|].
  destruct (Z.eqb_spec (Z.of_nat (length c) mod 512) 0); [contradiction|reflexivity].
Qed.

Definition demo_member (name data : list Z) : member := mkmember name (repeat 48 24) (repeat 0 376) data.
Definition demo_tar : list member :=
  [ demo_member [97] [0; 0; 11; 1; 0; 0; 0; 2; 1; 0; 2; 0];
    demo_member [98] (repeat 7 513);
    demo_member [97] [0; 0; 11; 1; 0; 0; 0; 2; 3; 0; 4; 0];
    demo_member [99] [] ].

Example C56_example :
  Forall member_ok demo_tar /\ Z.of_nat (length (archive demo_tar 2)) = 5120 /\
  let fs := fun _ : list Z => Some (archive demo_tar 2) in
  match op_readtar zt u16 11 5 fs [116] [97] (T_ 0 [2]) (demo [[0; 0]]) with
  | Some (Ok tt s) => dump s (T_ 0 [2]) = inits [3; 4]
  | _ => False
  end.
Proof.
  split; [|vm_compute; auto].
  assert (G : forall name data, name <> [] -> ~ In 0 name -> (length name <= 100)%nat -> Z.of_nat (length data) <= 600 ->
    member_ok (demo_member name data)).
  { intros name data H1 H2 H3 H4. unfold member_ok. cbn [demo_member m_name m_mid m_tail m_data]. rewrite !repeat_length.
    unfold size_limit. repeat split; auto. lia. }
  unfold demo_tar. repeat apply Forall_cons; [| | | |constructor]; apply G;
    first [discriminate | intros [H|[]]; discriminate H | vm_compute; congruence | vm_compute; lia].
Qed.

(** *** C57: termination. *)

(** Indexing ends when no size field contains a minus sign, whatever else the file contains. *)
Theorem C57_terminates : forall fs filename,
  (forall content i, fs filename = Some content -> ~ In 45 (firstn 12 (skipn (512 * i + 124) content))) ->
  exists fuel, make_tar_index fuel fs filename <> None.
Proof.
  intros fs filename H. destruct (fs filename) as [content|] eqn:F.
  - exists (S (length content)). unfold make_tar_index. rewrite F.
    destruct (Z.of_nat (length content) mod 512 =? 0); [|discriminate].
    apply (tar_loop_ends content (fun i => H content i eq_refl) (length content) 0 [] []). lia.
  - exists O. unfold make_tar_index. rewrite F. discriminate.
Qed.

(** A single header block whose size field is "-1000" (octal) makes it run forever. *)
Definition looping_tar : list Z :=
  ([97] ++ repeat 0 99) ++ repeat 48 24 ++ [45; 49; 48; 48; 48; 0; 0; 0; 0; 0; 0; 0] ++ repeat 0 376.

Theorem C57_refuted : exists (fs : filesystem) (filename : list Z), forall fuel, make_tar_index fuel fs filename = None.
Proof.
  exists (fun _ => Some looping_tar), [116]. intros fuel. unfold make_tar_index.
  replace (Z.of_nat (length looping_tar) mod 512 =? 0) with true by (vm_compute; reflexivity).
  assert (G : forall fuel buf idx, tar_loop fuel looping_tar buf (Some 0) idx = None).
  { intros f. induction f as [|f IH]; intros buf idx; [reflexivity|]. cbn [tar_loop].
    replace (0 <? Z.of_nat (length looping_tar)) with true by (vm_compute; reflexivity).
    set (b := firstn 512 (skipn (Z.to_nat 0) looping_tar)).
    replace (hd 0 b =? 0) with false by (vm_compute; reflexivity).
    replace (parse_tar_header b) with (Ret ([97], -512)) by (vm_compute; reflexivity).
    replace (block_bytes (-512)) with (Ret (-512)) by (vm_compute; reflexivity).
    cbn [Z.add Z.ltb Z.compare]. change (0 + 512 + -512) with 0. apply IH. }
  apply G.
Qed.

(** *** C58: overflow. *)
Theorem C58_defined : forall fs filename fuel,
  (forall content i n, fs filename = Some content ->
     stoll8 (firstn 12 (skipn (512 * i + 124) content)) = Ret n -> 0 <= n <= 2 ^ 31 - 512) ->
  make_tar_index fuel fs filename <> Some Undef.
Proof.
  intros fs filename fuel H. unfold make_tar_index. destruct (fs filename) as [content|] eqn:F; [|discriminate].
  destruct (Z.of_nat (length content) mod 512 =? 0); [|discriminate].
  apply (tar_loop_defined content (fun i n => H content i n eq_refl) fuel 0).
Qed.

(** The first member larger than 2^31 - 512 bytes is fatal, wherever it stands. *)
Theorem C58_overflow : forall fs filename fuel ms name mid tail n rest,
  fs filename = Some (flat_map member_bytes ms ++ member_header name mid tail n ++ rest) ->
  Z.of_nat (length rest) mod 512 = 0 -> Forall member_ok ms ->
  name <> [] -> ~ In 0 name -> (length name <= 100)%nat -> length mid = 24%nat -> length tail = 376%nat ->
  2 ^ 31 - 512 < n < 8 ^ 11 -> (length ms < fuel)%nat ->
  make_tar_index fuel fs filename = Some Undef.
Proof.
  intros fs filename fuel ms name mid tail n rest F R W N0 N1 Hl Hm Ht Hn Hf. unfold make_tar_index. rewrite F.
  replace (Z.of_nat (length (flat_map member_bytes ms ++ member_header name mid tail n ++ rest)) mod 512 =? 0) with true.
  - apply tar_loop_overflow; auto.
  - symmetry. apply Z.eqb_eq. rewrite !app_length, header_length, !Nat2Z.inj_add by auto.
    rewrite Zplus_mod, members_length, (Zplus_mod (Z.of_nat 512)), R by auto. reflexivity.
Qed.

Theorem C58_refuted : exists (fs : filesystem) (filename : list Z), make_tar_index 1 fs filename = Some Undef.
Proof.
  exists (fun _ => Some (member_header [97] (repeat 48 24) (repeat 0 376) (2 ^ 31 - 511))), [116]. vm_compute. reflexivity.
Qed.

Example C58_example :
  let fs := fun n => fun _ : list Z => Some (member_header [97] (repeat 48 24) (repeat 0 376) n) in
  make_tar_index 2 (fs (2 ^ 31 - 512)) [116] = Some (Ret [mkhdr [97] (2 ^ 31 - 512) 512]) /\
  make_tar_index 2 (fs (2 ^ 31 - 511)) [116] = Some Undef /\
  make_tar_index 2 (fs (2 ^ 33 - 1)) [116] = Some Undef.
Proof. vm_compute. auto. Qed.

(** *** C71: a truncated idx file inside an archive. *)

(** It is completed with whatever follows its data in the archive. *)
Theorem C71_overrun : forall V T (dt : dtype V T) (cd : codec T) code fs filename l m r k fuel X y s tl,
  fs filename = Some (archive (l ++ m :: r) k) -> Forall member_ok (l ++ m :: r) -> (length (l ++ m :: r) < fuel)%nat ->
  ~ In (m_name m) (map m_name r) ->
  m_data m ++ repeat 0 (pad512 (length (m_data m))) ++ archive r k = idx_file cd code (tdims y) X ++ tl ->
  codec_ok cd -> u32_dims (tdims y) -> mapped s y ->
  exists s', op_readtar dt cd code fuel fs filename (m_name m) y s = Some (Ok tt s') /\ holds dt s' y X /\ only_changes y s s'.
Proof.
  intros V T dt cd code fs filename l m r k fuel X y s tl F W Hf N Ed C U Hm.
  rewrite (readtar_member dt cd code fs filename l m r k fuel y s F W Hf N), Ed.
  destruct (deserialize_file dt cd code y X tl s C U Hm) as (s' & E & H & O).
  exists s'. split; auto. rewrite E. reflexivity.
Qed.

Example C71_example :
  (* three elements announced, one stored: two come from the padding *)
  let fs := fun _ : list Z => Some (archive [demo_member [97] [0; 0; 11; 1; 0; 0; 0; 3; 5; 0]] 2) in
  match op_readtar zt u16 11 2 fs [116] [97] (T_ 0 [3]) (demo [[7; 8; 9]]) with
  | Some (Ok tt s) => dump s (T_ 0 [3]) = inits [5; 0; 0]
  | _ => False
  end.
Proof. vm_compute. auto. Qed.

Print Assumptions C53_file.
Print Assumptions C53_length.
Print Assumptions C53_bytes.
Print Assumptions C53_roundtrip.
Print Assumptions C53_open.
Print Assumptions C54_mismatch.
Print Assumptions C54_accept.
Print Assumptions C54_other.
Print Assumptions C55_data.
Print Assumptions C55_complete.
Print Assumptions C55_short_header.
Print Assumptions C55_refuted.
Print Assumptions C56_found.
Print Assumptions C56_unknown.
Print Assumptions C56_open.
Print Assumptions C57_terminates.
Print Assumptions C57_refuted.
Print Assumptions C58_defined.
Print Assumptions C58_overflow.
Print Assumptions C58_refuted.
Print Assumptions C71_overrun.
