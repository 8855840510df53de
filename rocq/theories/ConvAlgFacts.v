(** The convolution of both layouts as one sum, and reindexing of such sums. *)
From Coq Require Import ZArith List Bool Lia ZifyBool Permutation.
From Verif Require Import Base BaseFacts TensorFacts Traits TraitsSpec Scalar LinAlg LinAlgFacts SumFacts
  Elem ElemSpec Conv ConvSpec ConvFacts ConvAlgSpec Layers PropsElem PropsConv.
Import ListNotations.
Open Scope Z_scope.

(** Unfold the arithmetic of an axis. *)
Ltac geo := unfold axis_ok, valid_config, span, axis_h, axis_w, axis_of, wpos, tap in *;
  cbn [h_trait w_trait lpad lstride lrate left_ right_ sfilter spadding ksize stride rate gn gh gw gc gr gs gd gh' gw'] in *.

Section Facts.
  Context {V T : Type} (dt : dtype V T) (di : dtype V Z) (sc : scalar T).

  (** Sum over the taps, in the order of the code. *)
  Definition tapsum (io : order) (g : geom) (f : Z -> Z -> Z -> T) : T :=
    match io with
    | nchw => sum_over sc (indices [gc g; gr g; gs g]) (arg3 (fun k u v => f u v k))
    | _ => sum_over sc (indices [gr g; gs g; gc g]) (arg3 f)
    end.
  Definition mulo (io : order) (a b : T) : T := match io with nchw => smul sc b a | _ => smul sc a b end.
  Definition conv_at (io : order) (C : conv_trait) (g : geom) (X Y : list Z -> T) (l i j t : Z) : T :=
    tapsum io g (fun u v k => mulo io (zimg sc io g X l k (wpos (axis_h C g) i u) (wpos (axis_w C g) j v))
                                      (Y (wgt io u v k t))).
  Definition conv_fn (io : order) (C : conv_trait) (g : geom) (X Y : list Z -> T) : list Z -> T :=
    match io with
    | nchw => arg4 (fun l t i j => conv_at io C g X Y l i j t)
    | _ => arg4 (fun l i j t => conv_at io C g X Y l i j t)
    end.

  Lemma conv_fn_pix : forall io C g X Y l i j t, conv_fn io C g X Y (pix io l i j t) = conv_at io C g X Y l i j t.
  Proof. intros [] C g X Y l i j t; reflexivity. Qed.

  Lemma conv_result : forall io e C g s z x y X Y, called dt sc io e C g s z x y X Y ->
    writes dt (op_conv dt di sc io e C z x y) s z (conv_fn io C g X Y).
  Proof.
    intros io e C [n h w c r q d h' w'] s z x y X Y (G & He & Ex & Ey & Ez & Hf & HX & HY & HZ & D1 & D2).
    destruct G as (L & AH & AW & Hn & Hc & Hd). unfold axis_h, axis_w in *.
    cbn [gn gh gw gc gr gs gd gh' gw'] in *. destruct L as [[-> Hsz] | ->]; cbn [op_conv pix wgt] in *.
    - exact (C16_conv_nhwc dt di sc e C z x y n h w c r q d h' w' X Y s AH AW Hn Hc Hd Hsz He Ex Ey Ez Hf HX HY HZ D1 D2).
    - refine (C17_conv_nchw dt sc e C z x y n h w c r q d h' w' X Y s AH AW Hn Hc Hd _ Ex Ey Ez Hf HX HY HZ D1 D2).
      eapply engine_ok_weaken; eauto. intros Q. inversion Q; auto.
  Qed.

  Lemma called_io : forall io e C g s z x y X Y, called dt sc io e C g s z x y X Y -> io = nhwc \/ io = nchw.
  Proof. intros io e C g s z x y X Y [[L _] _]. tauto. Qed.

  Lemma pix_cases : forall io n h w c ix, io = nhwc \/ io = nchw -> valid (pix io n h w c) ix ->
    exists l p q k, ix = pix io l p q k /\ 0 <= l < n /\ 0 <= p < h /\ 0 <= q < w /\ 0 <= k < c.
  Proof.
    intros io n h w c ix [-> | ->] H; cbn [pix] in H; apply valid_4 in H; destruct H as (a & b & d & f & -> & H).
    - exists a, b, d, f. tauto.
    - exists a, d, f, b. tauto.
  Qed.

  Lemma tapsum_ext : forall io g g' f f', gr g = gr g' -> gs g = gs g' -> gc g = gc g' ->
    (forall u v k, 0 <= u < gr g -> 0 <= v < gs g -> 0 <= k < gc g -> f u v k = f' u v k) ->
    tapsum io g f = tapsum io g' f'.
  Proof.
    intros io [n h w c r q d h' w'] [n1 h1 w1 c1 r1 q1 d1 h1' w1'] f f' A B D E.
    cbn [gn gh gw gc gr gs gd gh' gw'] in *. subst r1 q1 c1.
    unfold tapsum; cbn [gn gh gw gc gr gs gd gh' gw'].
    destruct io; apply sum_over_ext; intros a Ha; apply in_indices, valid_3 in Ha;
      destruct Ha as (a1 & a2 & a3 & -> & Ha); unfold arg3; cbn [nth]; apply E; tauto.
  Qed.

  Lemma conv_at_window : forall io C C2 g g2 X X2 Y Y2 l i j t l2 i2 j2 t2,
    gr g = gr g2 -> gs g = gs g2 -> gc g = gc g2 ->
    (forall u v k, 0 <= u < gr g -> 0 <= v < gs g -> 0 <= k < gc g ->
       zimg sc io g X l k (wpos (axis_h C g) i u) (wpos (axis_w C g) j v)
       = zimg sc io g2 X2 l2 k (wpos (axis_h C2 g2) i2 u) (wpos (axis_w C2 g2) j2 v) /\
       Y (wgt io u v k t) = Y2 (wgt io u v k t2)) ->
    conv_at io C g X Y l i j t = conv_at io C2 g2 X2 Y2 l2 i2 j2 t2.
  Proof.
    intros. unfold conv_at. apply tapsum_ext; auto. intros u v k Hu Hv Hk.
    destruct (H2 u v k Hu Hv Hk) as [-> ->]. reflexivity.
  Qed.

  (** Matrix product of three tensors read as matrices. *)
  Lemma matmul_view : forall pz px py z x y az bz ax k ky by_ X Y s,
    tdims z = az ++ bz -> tdims x = ax ++ k -> tdims y = ky ++ by_ ->
    length az = pz -> length ax = px -> length ky = py ->
    prod az = prod ax -> prod k = prod ky -> prod by_ = prod bz ->
    dims_ok z -> dims_ok x -> dims_ok y ->
    holds dt s x X -> holds dt s y Y -> mapped s z -> disjoint z x -> disjoint z y ->
    writes dt (op_matmul dt sc Builtin (as_matrix pz z) (as_matrix px x) (as_matrix py y)) s z
      (fun ix => sum_over sc (zrange (prod k)) (fun j =>
         smul sc (X (expand ax (offset az (firstn pz ix)) ++ expand k j))
                 (Y (expand ky j ++ expand by_ (offset bz (skipn pz ix)))))).
  Proof.
    intros pz px py z x y az bz ax k ky by_ X Y s Ez Ex Ey <- <- <- Ea Ek Eb Dz Dx Dy HX HY HZ D1 D2.
    pose proof (holds_as_matrix dt s (length ax) x X Dx HX) as HA. rewrite Ex, firstn_app, skipn_app, Nat.sub_diag, firstn_all, skipn_all in HA.
    pose proof (holds_as_matrix dt s (length ky) y Y Dy HY) as HB. rewrite Ey, firstn_app, skipn_app, Nat.sub_diag, firstn_all, skipn_all in HB.
    cbn [firstn skipn] in HA, HB. rewrite app_nil_r in HA, HB. rewrite app_nil_l in HA, HB.
    assert (N : nonneg az /\ nonneg bz) by (unfold dims_ok in Dz; rewrite Ez in Dz; apply Forall_app in Dz; exact Dz).
    assert (Nk : nonneg k) by (unfold dims_ok in Dx; rewrite Ex in Dx; apply Forall_app in Dx; apply Dx).
    eapply writes_ext; [reflexivity| |apply (writes_as_matrix dt _ s (length az) z); auto;
      eapply (e_mm_writes dt sc Builtin (as_matrix (length ax) x) (as_matrix (length ky) y) (as_matrix (length az) z)
        (prod az) (prod k) (prod bz) _ _ s) with (8 := HA) (9 := HB)].
    - intros ix Hix. rewrite Ez, firstn_app, skipn_app, Nat.sub_diag, firstn_all, skipn_all.
      cbn [firstn skipn]. rewrite app_nil_r, app_nil_l. reflexivity.
    - exact I.
    - rewrite tdims_as_matrix, Ex, firstn_app, skipn_app, Nat.sub_diag, firstn_all, skipn_all. cbn [firstn skipn].
      rewrite app_nil_r, app_nil_l. congruence.
    - rewrite tdims_as_matrix, Ey, firstn_app, skipn_app, Nat.sub_diag, firstn_all, skipn_all. cbn [firstn skipn].
      rewrite app_nil_r, app_nil_l. congruence.
    - rewrite tdims_as_matrix, Ez, firstn_app, skipn_app, Nat.sub_diag, firstn_all, skipn_all. cbn [firstn skipn].
      rewrite app_nil_r, app_nil_l. reflexivity.
    - apply prod_nonneg, N.
    - apply prod_nonneg, Nk.
    - apply prod_nonneg, N.
    - apply mapped_as_matrix; auto.
    - apply disjoint_as_matrix; auto.
    - apply disjoint_as_matrix; auto.
  Qed.
End Facts.

Section Ring.
  Context {T : Type} (sc : scalar T) (laws : ring_laws sc).
  Let rt : Ring_theory.ring_theory (s0 sc) (s1 sc) (sadd sc) (smul sc) (ssub sc) (sneg sc) (@eq T) := laws.
  Add Ring sc_ring_ca : rt.

  Lemma mulo_mul : forall io a b, mulo sc io a b = smul sc a b.
  Proof. intros [] a b; unfold mulo; try reflexivity. ring. Qed.

  Lemma tapsum_nest : forall io g f, tapsum sc io g f =
    sum_over sc (zrange (gr g)) (fun u => sum_over sc (zrange (gs g)) (fun v => sum_over sc (zrange (gc g)) (fun k => f u v k))).
  Proof.
    assert (N : forall a b c (f : Z -> Z -> Z -> T), sum_over sc (indices [a; b; c]) (arg3 f) =
      sum_over sc (zrange a) (fun u => sum_over sc (zrange b) (fun v => sum_over sc (zrange c) (fun k => f u v k)))).
    { intros. rewrite (sum_indices_cons sc laws). apply sum_over_ext. intros u _.
      rewrite (sum_indices_cons sc laws). apply sum_over_ext. intros v _.
      rewrite (sum_indices_cons sc laws). apply sum_over_ext. intros k _. apply (sum_indices_nil sc laws). }
    intros [] g f; unfold tapsum; rewrite N; try reflexivity.
    rewrite (sum_swap sc laws). apply sum_over_ext. intros u _. apply (sum_swap sc laws).
  Qed.

  Lemma tapsum_add : forall io g f f', tapsum sc io g (fun u v k => sadd sc (f u v k) (f' u v k))
    = sadd sc (tapsum sc io g f) (tapsum sc io g f').
  Proof. intros [] g f f'; unfold tapsum; apply (sum_add sc laws). Qed.
  Lemma tapsum_scale : forall io g a f, tapsum sc io g (fun u v k => smul sc a (f u v k))
    = smul sc a (tapsum sc io g f).
  Proof. intros [] g a f; unfold tapsum; apply (sum_scale_l sc laws). Qed.

  (** Dropping the terms outside a sublist where the summand is zero. *)
  Lemma sum_subset : forall {A} (l l' : list A) f, (forall a b : A, {a = b} + {a <> b}) ->
    NoDup l -> NoDup l' -> incl l' l -> (forall a, In a l -> ~ In a l' -> f a = s0 sc) ->
    sum_over sc l f = sum_over sc l' f.
  Proof.
    intros A l l' f dec N N' I H.
    rewrite (sum_over_ext sc l f (fun a => if (if in_dec dec a l' then true else false) then f a else s0 sc)).
    - rewrite <- (sum_filter sc laws). apply (sum_perm sc laws). apply NoDup_Permutation; auto.
      + apply NoDup_filter; auto.
      + intros a. rewrite filter_In. destruct (in_dec dec a l'); split; intros; try tauto.
        * auto.
        * destruct H0; discriminate.
    - intros a Ha. destruct (in_dec dec a l'); auto.
  Qed.

  Lemma sum_multiples : forall m d (f : Z -> T), 1 <= m -> 1 <= d ->
    (forall a, 0 <= a < (m - 1) * d + 1 -> (forall b, 0 <= b < m -> a <> b * d) -> f a = s0 sc) ->
    sum_over sc (zrange ((m - 1) * d + 1)) f = sum_over sc (zrange m) (fun b => f (b * d)).
  Proof.
    intros m d f Hm Hd H.
    rewrite <- (sum_over_map sc (zrange m) (fun b => b * d) f).
    apply sum_subset; auto using Z.eq_dec, NoDup_zrange.
    - apply FinFun.Injective_map_NoDup; [|apply NoDup_zrange]. intros a b E. nia.
    - intros a Ha. apply in_map_iff in Ha. destruct Ha as (b & <- & Hb). apply in_zrange in Hb. apply in_zrange. nia.
    - intros a Ha Na. apply in_zrange in Ha. apply H; auto. intros b Hb ->. apply Na. apply in_map_iff.
      exists b. split; auto. apply in_zrange; auto.
  Qed.
End Ring.
