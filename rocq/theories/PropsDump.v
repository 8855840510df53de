(** Property C114: the images written by example_mnist.cpp. *)
From Coq Require Import ZArith List Bool Lia String.
From Verif Require Import Base BaseFacts TensorFacts Traits HashSpec Scalar Demo Elem ElemFacts Io IoSpec IoFacts PropsIo
  Layers LayersSpec LayersFacts Examples ExamplesSpec ExamplesFacts PropsData MnistDump.
Import ListNotations.
Open Scope Z_scope.
Open Scope model_scope.

(** The number that a decimal numeral denotes. *)
Definition numeral_value (ds : list Z) : Z := fold_left (fun v d => 10 * v + (d - 48)) ds 0.

(** [ds] is the usual decimal numeral of [i]: digits only, no leading zero. *)
Definition numeral_of (i : Z) (ds : list Z) : Prop :=
  Forall (fun d => 48 <= d <= 57) ds /\ numeral_value ds = i /\ (hd 48 ds = 48 -> ds = [48]).

(** The file for image number [i], counted from 1. *)
Definition png_of (i : Z) (name : list Z) : Prop :=
  exists ds, numeral_of i ds /\ name = str "images/" ++ ds ++ str ".png".

(** The call of imwrite for image [i] (counted from 0) of [n] images of [h] x [w]. *)
Definition shows (h w : Z) (X : list Z -> Z) (i : Z) (call : list Z * list Z) : Prop :=
  png_of (i + 1) (fst call) /\ Z.of_nat (List.length (snd call)) = h * w /\
  forall y x, 0 <= y < h -> 0 <= x < w -> nth (Z.to_nat (y * w + x)) (snd call) 0 = X [i; y; x].

Lemma digits_ok : forall fuel i, 0 <= i < Z.of_nat fuel ->
  Forall (fun d => 48 <= d <= 57) (digits fuel i) /\ numeral_value (digits fuel i) = i /\
  (hd 48 (digits fuel i) = 48 -> digits fuel i = [48]) /\ digits fuel i <> [] /\ (0 < i -> hd 48 (digits fuel i) <> 48).
Proof.
  induction fuel as [|fuel IH]; intros i Hi; [lia|]. cbn [digits]. destruct (Z.ltb_spec i 10) as [H|H].
  - split; [repeat constructor; lia|]. split; [unfold numeral_value; cbn [fold_left]; lia|]. cbn [hd].
    split; [intros E; rewrite E; reflexivity|]. split; [discriminate|lia].
  - pose proof (Z.div_mod i 10 ltac:(lia)) as D. pose proof (Z.mod_pos_bound i 10 ltac:(lia)) as B.
    assert (Q : 0 <= i / 10 < Z.of_nat fuel) by (split; [apply Z.div_pos; lia|]; assert (i / 10 < i) by (apply Z.div_lt; lia); lia).
    destruct (IH _ Q) as (A & N & _ & E & P). specialize (P ltac:(apply Z.div_str_pos; lia)).
    split; [apply Forall_app; split; [exact A|repeat constructor; lia]|].
    split; [unfold numeral_value in *; rewrite fold_left_app, N; cbn [fold_left]; lia|].
    assert (Hh : hd 48 (digits fuel (i / 10) ++ [48 + i mod 10]) = hd 48 (digits fuel (i / 10))) by (destruct (digits fuel (i / 10)); [contradiction|reflexivity]).
    rewrite Hh. split; [contradiction|]. split; [|auto]. intros Z. apply app_eq_nil in Z. destruct Z. discriminate.
Qed.

Lemma digits_short : forall k fuel i, 0 <= i < 10 ^ Z.of_nat (S k) -> (List.length (digits fuel i) <= S k)%nat.
Proof.
  induction k as [|k IH]; intros [|fuel] i Hi; cbn [digits]; try (cbn [List.length]; lia).
  - change (10 ^ Z.of_nat 1) with 10 in Hi. destruct (Z.ltb_spec i 10); [cbn; lia|lia].
  - destruct (Z.ltb_spec i 10); [cbn; lia|]. rewrite app_length. cbn [List.length].
    assert (List.length (digits fuel (i / 10)) <= S k)%nat; [|lia]. apply IH.
    replace (Z.of_nat (S (S k))) with (Z.of_nat (S k) + 1) in Hi by lia. rewrite Z.pow_add_r, Z.pow_1_r in Hi by lia.
    split; [apply Z.div_pos; lia|apply Z.div_lt_upper_bound; lia].
Qed.

Lemma digits_long : forall k fuel i, 0 <= i < Z.of_nat fuel -> 10 ^ Z.of_nat k <= i -> (S k <= List.length (digits fuel i))%nat.
Proof.
  induction k as [|k IH]; intros [|fuel] i Hi Hk; try lia; cbn [digits].
  - destruct (i <? 10); [cbn; lia|rewrite app_length; cbn; lia].
  - replace (Z.of_nat (S k)) with (Z.of_nat k + 1) in Hk by lia. rewrite Z.pow_add_r, Z.pow_1_r in Hk by lia.
    pose proof (Z.pow_pos_nonneg 10 (Z.of_nat k) ltac:(lia) ltac:(lia)). destruct (Z.ltb_spec i 10); [lia|]. rewrite app_length. cbn [List.length].
    assert (S k <= List.length (digits fuel (i / 10)))%nat; [|lia]. apply IH; [|apply Z.div_le_lower_bound; lia].
    split; [apply Z.div_pos; lia|]. assert (i / 10 < i) by (apply Z.div_lt; lia). lia.
Qed.

(** Names of different images differ. *)
Theorem C114_names : forall i j name, png_of i name -> png_of j name -> i = j.
Proof.
  intros i j name (a & (_ & <- & _) & ->) (b & (_ & <- & _) & E). apply app_inv_head, app_inv_tail in E. congruence.
Qed.

(** The array of 32 characters suffices for 20 digits and no more; its last
    character is the NUL. *)
Theorem C114_buffer : forall V i (s : st V), 0 <= i ->
  (i < 10 ^ 20 -> exists name, sprintf_name 32 i s = Ok name s /\ png_of i name /\ (List.length name < 32)%nat) /\
  (10 ^ 20 <= i -> sprintf_name 32 i s = UB).
Proof.
  intros V i s H0. split; intros H.
  2:{ assert (L : (21 <= List.length (decimal i))%nat) by (apply digits_long; [lia|change (Z.of_nat 20) with 20; exact H]).
      unfold sprintf_name. rewrite (proj2 (Z.leb_gt _ _)); [reflexivity|]. rewrite !app_length. change (List.length (str "images/")) with 7%nat.
      change (List.length (str ".png")) with 4%nat. lia. }
  exists (str "images/" ++ decimal i ++ str ".png").
  assert (L : (List.length (decimal i) <= 20)%nat) by (apply digits_short; change (Z.of_nat 20) with 20; lia).
  assert (Ll : (List.length (str "images/" ++ decimal i ++ str ".png") < 32)%nat) by (rewrite !app_length; change (List.length (str "images/")) with 7%nat; change (List.length (str ".png")) with 4%nat; lia).
  split; [unfold sprintf_name; rewrite (proj2 (Z.leb_le _ _)) by lia; reflexivity|]. split; [|exact Ll].
  exists (decimal i). split; [|reflexivity]. destruct (digits_ok (S (Z.to_nat i)) i ltac:(lia)) as (A & B & C & _). split; auto.
Qed.

Lemma nth_zrange : forall m i, (i < Z.to_nat m)%nat -> nth i (zrange m) 0 = Z.of_nat i.
Proof. intros m i H. unfold zrange. rewrite (map_nth Z.of_nat _ 0%nat), seq_nth by auto. reflexivity. Qed.

Lemma foldM_total : forall V A B (l : list A) (f : B -> A -> M V B) (s : st V) b,
  (forall b a, In a l -> f b a s = UB \/ exists b', f b a s = Ok b' s) -> foldM l f b s = UB \/ exists b', foldM l f b s = Ok b' s.
Proof.
  intros V A B l f s. induction l as [|a l IH]; intros b H; cbn [foldM]; [right; eexists; reflexivity|].
  destruct (H b a (or_introl eq_refl)) as [E|(b' & E)]; unfold bind; rewrite E; [auto|]. apply IH. intros; apply H; right; auto.
Qed.

Lemma foldM_stuck : forall V A B (l : list A) (f : B -> A -> M V B) (s : st V) b a0,
  (forall b a, In a l -> f b a s = UB \/ exists b', f b a s = Ok b' s) -> In a0 l -> (forall b, f b a0 s = UB) -> foldM l f b s = UB.
Proof.
  intros V A B l f s b a0 H I S. revert b H I. induction l as [|a l IH]; intros b H I; [contradiction|]. cbn [foldM].
  destruct I as [->|I]; [unfold bind; rewrite S; reflexivity|].
  destruct (H b a (or_introl eq_refl)) as [E|(b' & E)]; unfold bind; rewrite E; [auto|]. apply IH; auto. intros; apply H; right; auto.
Qed.

Section Dump.
  Context {V : Type} (du : dtype V Z) (cu : codec Z) (ucode : Z) (fs : filesystem) (C1 : csize cu = 1%nat).
  Context (n h w : Z) (U : u32_dims [n; h; w]).

  Local Notation dump o f := (dump_images du cu ucode o fs n h w 32 f).

  Lemma sprintf_all : forall i (s : st V), In i (zrange n) ->
    exists name, sprintf_name 32 (i + 1) s = Ok name s /\ png_of (i + 1) name.
  Proof using U.
    clear C1. intros i s I. apply in_zrange in I. unfold u32_dims in U. rewrite !Forall_cons_iff in U.
    destruct (C114_buffer V (i + 1) s ltac:(lia)) as [(name & E & P & _) _]; [lia|]. eauto.
  Qed.

  (** The tensor once the file has been read. *)
  Lemma dump_start : forall f data s o, fresh_ok s -> fs f = Some (idx_header ucode [n; h; w] ++ data) ->
    exists s2, (forall p, fst p <> nextb s -> cells s2 p = cells s p) /\ nextb s <= nextb s2 /\
      let t := mktensor (nextb s) 0 [n; h; w] in
      (forall a, 0 <= a < n * (h * w) -> got du cu data a (cells s2 (daddr t a))) /\
      dump o f s = match foldM (zrange n) (fun out i =>
        name <- sprintf_name 32 (i + 1) ;;
        if o then bytes <- mat_bytes du h w (sub t i) ;; ret (out ++ [(name, bytes)]) else ret out) [] s2 with
        | Ok a s3 => Ok a (dealloc (nextb s) s3)
        | Throw e s3 => Throw e (dealloc (nextb s) s3)
        | UB => UB
        end.
  Proof using C1 U.
    intros f data s o F Ff. destruct (new_tensor_born s [n; h; w] F) as (t & s1 & E1 & B).
    unfold dump_images, with_tensor, with_temp. unfold new_tensor, bind, ret in E1. unfold alloc in *. inversion E1; subst t s1. clear E1.
    destruct B as (_ & _ & _ & _ & M & _ & K & Un). set (s1 := mkst _ _) in *. set (t := mktensor (nextb s) 0 [n; h; w]) in *.
    destruct (readfile_new du cu ucode fs ltac:(lia) f data t s1) as (s2 & E & (N & O) & _ & G); auto.
    exists s2. split; [|split; [cbn in N; lia|]].
    - intros p Hp. rewrite O by (intros (a & _ & ->); apply Hp; reflexivity). unfold s1. cbn. destruct (Z.eqb_spec (fst p) (nextb s)); [contradiction|reflexivity].
    - cbv zeta. split; [intros a Ha; apply G; unfold size; cbn; lia|]. rewrite (bind_ok _ _ _ _ _ E). reflexivity.
  Qed.

  (** With a complete file: one call of imwrite for every image, in order, with
      its number and its bytes; memory as before.  Without OpenCV: no call. *)
  Theorem C114_images : forall f b X s, fresh_ok s -> fs f = Some b -> stores cu ucode [n; h; w] b X ->
    exists out s' s'', dump true f s = Ok out s' /\ dump false f s = Ok [] s'' /\
      Z.of_nat (List.length out) = n /\ (forall i, 0 <= i < n -> shows h w X i (nth (Z.to_nat i) out ([], []))) /\
      (forall q, cells s' q = cells s q) /\ (forall q, cells s'' q = cells s q).
  Proof using C1 U.
    intros f b X s F Ff (data & -> & Ld & HX). assert (U' := U). unfold u32_dims in U'. rewrite !Forall_cons_iff in U'.
    destruct (dump_start f data s true F Ff) as (s2 & K2 & N2 & G2 & E2).
    destruct (dump_start f data s false F Ff) as (s3 & K3 & N3 & G3 & E3). set (t := mktensor (nextb s) 0 [n; h; w]) in *.
    assert (R : forall (s2 : st V), (forall p, fst p <> nextb s -> cells s2 p = cells s p) -> forall q, cells (dealloc (nextb s) s2) q = cells s q).
    { intros r Hr q. cbn. destruct (Z.eqb_spec (fst q) (nextb s)) as [E|E]; [symmetry; apply F; lia|auto]. }
    set (name i := str "images/" ++ decimal (i + 1) ++ str ".png").
    set (val a := dec cu (firstn (csize cu) (skipn (Z.to_nat a * csize cu) data))).
    set (px i := map (fun o => val (i * (h * w) + o)) (zrange (h * w))).
    assert (NM : forall i (r : st V), In i (zrange n) -> sprintf_name 32 (i + 1) r = Ok (name i) r /\ png_of (i + 1) (name i)).
    { intros i r I. destruct (sprintf_all i r I) as (nm & E & P). unfold sprintf_name in *. fold (name i) in E |- *. destruct (_ <=? 32); [|discriminate].
      inversion E; subst nm. split; [reflexivity|exact P]. }
    assert (FL : forall A B (g : A -> B) (l : list A) acc, fold_left (fun r a => r ++ [g a]) l acc = acc ++ map g l).
    { intros A B g. induction l as [|a l IH]; intros acc; cbn [fold_left map]; [rewrite app_nil_r; reflexivity|]. rewrite IH, <- app_assoc. reflexivity. }
    assert (EM : forall i, In i (zrange n) -> mat_bytes du h w (sub t i) s2 = Ok (px i) s2).
    { intros i I. apply in_zrange in I. unfold mat_bytes, px. rewrite foldM_pure with (g := fun l o => l ++ [val (i * (h * w) + o)]); [rewrite FL; reflexivity|].
      intros l o Io. apply in_zrange in Io. cbn beta. rewrite (bind_ok _ _ _ (val (i * (h * w) + o)) s2); [reflexivity|]. apply load_ok.
      assert (Ha : 0 <= i * (h * w) + o < n * (h * w)) by nia. destruct (G2 _ Ha) as [G _].
      replace (daddr (sub t i) o) with (daddr t (i * (h * w) + o)) by (unfold daddr, sub, t; cbn; f_equal; lia).
      apply G. cbn [prod] in Ld. rewrite C1 in *. nia. }
    assert (ET : dump true f s = Ok (map (fun i => (name i, px i)) (zrange n)) (dealloc (nextb s) s2)).
    { rewrite E2. rewrite foldM_pure with (g := fun l i => l ++ [(name i, px i)]); [rewrite FL; reflexivity|]. intros l i I. cbn beta.
      rewrite (bind_ok _ _ _ _ _ (proj1 (NM i s2 I))), (bind_ok _ _ _ _ _ (EM i I)). reflexivity. }
    assert (EF : dump false f s = Ok [] (dealloc (nextb s) s3)).
    { rewrite E3. rewrite foldM_pure with (g := fun out _ => out).
      - assert (Q : forall (l : list Z) (acc : list (list Z * list Z)), fold_left (fun out _ => out) l acc = acc) by (induction l; cbn; auto). rewrite Q. reflexivity.
      - intros l i I. cbn beta. rewrite (bind_ok _ _ _ _ _ (proj1 (NM i s3 I))). reflexivity. }
    exists (map (fun i => (name i, px i)) (zrange n)), (dealloc (nextb s) s2), (dealloc (nextb s) s3).
    split; [exact ET|]. split; [exact EF|]. split; [rewrite map_length, length_zrange; lia|]. split; [|split; apply R; auto].
    intros i Hi.
    assert (EN : nth (Z.to_nat i) (map (fun i => (name i, px i)) (zrange n)) ([], []) = (name i, px i)).
    { rewrite nth_indep with (d' := (name 0, px 0)) by (rewrite map_length, length_zrange; lia).
      rewrite (map_nth (fun i => (name i, px i)) (zrange n) 0). rewrite nth_zrange by lia. rewrite Z2Nat.id by lia. reflexivity. }
    rewrite EN. unfold shows. cbn [fst snd]. split; [apply (NM i s); apply in_zrange; lia|].
    split; [unfold px; rewrite map_length, length_zrange; nia|].
    intros y x Hy Hx. unfold px.
    assert (Hb : 0 <= y * w + x < h * w) by nia.
    rewrite nth_indep with (d' := val (i * (h * w) + 0)) by (rewrite map_length, length_zrange; lia).
    rewrite (map_nth (fun o => val (i * (h * w) + o)) (zrange (h * w)) 0). rewrite nth_zrange by lia. rewrite Z2Nat.id by lia.
    rewrite HX by (cbn; lia). unfold val. cbn [offset prod]. repeat f_equal; lia.
  Qed.

  (** A file that ends early is accepted.  With OpenCV the pixels it lacks are read
      all the same: undefined. *)
  Theorem C114_truncated_refuted : forall f data s, fresh_ok s -> fs f = Some (idx_header ucode [n; h; w] ++ data) ->
    Z.of_nat (List.length data) < n * (h * w) -> dump true f s = UB /\ exists s', dump false f s = Ok [] s'.
  Proof using C1 U.
    intros f data s F Ff L. assert (U' := U). unfold u32_dims in U'. rewrite !Forall_cons_iff in U'. split.
    - destruct (dump_start f data s true F Ff) as (s2 & _ & _ & G & E). set (t := mktensor (nextb s) 0 [n; h; w]) in *.
      assert (LD : forall p, load du p s2 = UB \/ exists x, load du p s2 = Ok x s2).
      { intros p. unfold load. destruct (cells s2 p); auto. destruct (prj du v); eauto. }
      assert (MT : forall i, mat_bytes du h w (sub t i) s2 = UB \/ exists bs, mat_bytes du h w (sub t i) s2 = Ok bs s2).
      { intros i. apply foldM_total. intros l o _. destruct (LD (daddr (sub t i) o)) as [Q|(x & Q)]; unfold bind; rewrite Q; [auto|]. right. eexists. reflexivity. }
      set (k := Z.of_nat (List.length data)) in *. assert (P : 0 < h * w) by nia.
      pose proof (Z.div_mod k (h * w) ltac:(lia)) as D. pose proof (Z.mod_pos_bound k (h * w) P) as B.
      assert (I : 0 <= k / (h * w) < n) by (split; [apply Z.div_pos; lia|apply Z.div_lt_upper_bound; lia]).
      assert (S : mat_bytes du h w (sub t (k / (h * w))) s2 = UB).
      { apply foldM_stuck with (a0 := k mod (h * w)).
        - intros l o _. destruct (LD (daddr (sub t (k / (h * w))) o)) as [Q|(x & Q)]; unfold bind; rewrite Q; [auto|]. right. eexists. reflexivity.
        - apply in_zrange. lia.
        - intros l. unfold bind, load. replace (daddr (sub t (k / (h * w))) (k mod (h * w))) with (daddr t k) by (unfold daddr, sub, t; cbn; f_equal; lia).
          destruct (G k ltac:(lia)) as [_ G']. rewrite G' by (rewrite C1; lia). reflexivity. }
      rewrite E, foldM_stuck with (a0 := k / (h * w)); [reflexivity| |apply in_zrange; lia|].
      + intros out i Ii. destruct (sprintf_all i s2 Ii) as (nm & En & _). rewrite (bind_ok _ _ _ _ _ En).
        destruct (MT i) as [Q|(bs & Q)]; unfold bind; rewrite Q; [auto|]. right. eexists. reflexivity.
      + intros out. destruct (sprintf_all (k / (h * w)) s2 ltac:(apply in_zrange; lia)) as (nm & En & _). rewrite (bind_ok _ _ _ _ _ En).
        unfold bind. rewrite S. reflexivity.
    - destruct (dump_start f data s false F Ff) as (s2 & _ & _ & G & E). eexists. rewrite E. rewrite foldM_pure with (g := fun out _ => out).
      + assert (Q : forall (l : list Z) (acc : list (list Z * list Z)), fold_left (fun out _ => out) l acc = acc) by (induction l; cbn; auto). rewrite Q. reflexivity.
      + intros l i I. destruct (sprintf_all i s2 I) as (nm & En & _). rewrite (bind_ok _ _ _ _ _ En). reflexivity.
  Qed.

  (** No file, or one for another shape: std::runtime_error, no image, no storage
      left behind. *)
  Theorem C114_fails : forall f o s, fresh_ok s -> unreadable fs ucode [n; h; w] f ->
    exists s', dump o f s = Throw RuntimeError s' /\ forall q, cells s' q = cells s q.
  Proof using U.
    clear C1. intros f o s F H. unfold dump_images, with_tensor, with_temp, alloc. set (s1 := mkst _ _).
    exists (dealloc (nextb s) s1). unfold bind at 1. rewrite readfile_bad by auto. split; [reflexivity|].
    intros q. unfold s1. cbn. destruct (Z.eqb_spec (fst q) (nextb s)) as [E|E]; [symmetry; apply F; lia|reflexivity].
  Qed.
End Dump.

(** The program itself: 10000 images of 28 x 28. *)
Theorem C114_main : forall V (du : dtype V Z) cu ucode fs home b X s, csize cu = 1%nat -> fresh_ok s ->
  fs (home ++ str "/var/data/mnist/t10k-images-idx3-ubyte") = Some b -> stores cu ucode [10000; 28; 28] b X ->
  exists out s', dump_main du cu ucode true fs (Some home) s = Ok out s' /\ Z.of_nat (List.length out) = 10000 /\
    (forall i, 0 <= i < 10000 -> shows 28 28 X i (nth (Z.to_nat i) out ([], []))) /\ forall q, cells s' q = cells s q.
Proof.
  intros V du cu ucode fs home b X s C1 F Ff H.
  destruct (C114_images du cu ucode fs C1 10000 28 28 ltac:(unfold u32_dims; repeat constructor; lia) _ b X s F Ff H) as (out & s' & _ & E & _ & L & S & K & _).
  exists out, s'. unfold dump_main. change (10 * 1000) with 10000.
  change (str "/var/data/mnist" ++ str "/" ++ str "t10k-images-idx3-ubyte") with (str "/var/data/mnist/t10k-images-idx3-ubyte").
  rewrite E. auto.
Qed.

Theorem C114_no_home_refuted : forall V (du : dtype V Z) cu ucode o fs s, dump_main du cu ucode o fs None s = UB.
Proof. reflexivity. Qed.

(** Two images of 1 x 2 pixels; a file that lacks the last pixel; a file for three
    images; an array that is too small. *)
Example C114_example :
  let s := demo [[9]] in
  let u8 : codec Z := mkcodec 1 (fun v => [v]) (fun l => nth 0 l 0) in
  let fs k l : filesystem := fun name => if list_eq_dec Z.eq_dec name (str "f") then Some ([0; 0; 8; 3; 0; 0; 0; k; 0; 0; 0; 1; 0; 0; 0; 2] ++ l) else None in
  let dump k l cap := match dump_images zt u8 8 true (fs k l) 2 1 2 cap (str "f") s with
                      | Ok out _ => Some (Some out) | Throw _ _ => Some None | UB => None end in
  dump 2 [10; 20; 30; 40] 32 = Some (Some [(str "images/1.png", [10; 20]); (str "images/2.png", [30; 40])]) /\
  dump 2 [10; 20; 30] 32 = None /\
  dump 3 [10; 20; 30; 40; 50; 60] 32 = Some None /\
  dump 2 [10; 20; 30; 40] 12 = None /\
  decimal 10000 = str "10000" /\ decimal 907 = str "907".
Proof. repeat split; vm_compute; reflexivity. Qed.

Print Assumptions C114_names.
Print Assumptions C114_buffer.
Print Assumptions C114_images.
Print Assumptions C114_truncated_refuted.
Print Assumptions C114_fails.
Print Assumptions C114_main.
Print Assumptions C114_no_home_refuted.
