(** Model of the unit tests of the repository (tests/*.cpp) whose sizes are
    function parameters or local constants: the constants are parameters here.
    A test returns whether every assertion holds.  Simplifications: a failed
    ASSERT does not end the test early (the remaining assertions are evaluated
    too), nested [at] loops over a whole tensor are one loop over its elements,
    a tensor is declared where the test declares it, R = int is the unbounded
    integers (no sum in these tests leaves the range at the sizes used). *)
From Coq Require Import ZArith List Bool.
From Verif Require Import Base Traits Scalar LinAlg Elem Transpose Conv1d Reshape Summary Shapes.
Import ListNotations.
Open Scope Z_scope.
Open Scope model_scope.

Section Tests.
  Context {V : Type} (dt : dtype V Z).

  (** [for (auto i : range(n)) { ASSERT_TRUE(f(i)); }]. *)
  Definition assert_all (n : Z) (f : Z -> M V bool) : M V bool :=
    foldM (zrange n) (fun b i => c <- f i ;; ret (b && c)) true.

  (** Every element of [t] is asserted to be [want i] at offset [i]. *)
  Definition assert_data (t : tensor) (want : Z -> Z) : M V bool :=
    assert_all (size t) (fun i => v <- load dt (daddr t i) ;; ret (v =? want i)).

  (** [ASSERT_EQ(f(x.data()[i]), y.data()[i])] for [i] below [n]. *)
  Definition assert_map (n : Z) (f : Z -> Z) (x y : tensor) : M V bool :=
    assert_all n (fun i =>
      a <- load dt (daddr x i) ;; b <- load dt (daddr y i) ;; ret (f a =? b)).

  (** assert_tensor_eq (tests/include/ttl/nn/bits/testing.hpp:45-53), and
      bytes_eq (62-69) for an element type without padding. *)
  Definition assert_tensor_eq (x y : tensor) : M V bool :=
    if shape_eqb (tdims x) (tdims y) then assert_map (size x) (fun v => v) x y else ret false.

  (** std::iota(t.data(), t.data_end(), v). *)
  Definition iota (t : tensor) (v : Z) : M V unit :=
    for_ (zrange (size t)) (fun i => store dt (daddr t i) (v + i)).

  (** gen_test_tensor (testing.hpp:10-17); returns the new seed. *)
  Definition gen_test_tensor (t : tensor) (seed : Z) : M V Z :=
    foldM (zrange (size t)) (fun s i =>
      let s' := Z.rem (s + 7) 10 in store dt (daddr t i) s' ;;; ret s') seed.

  (** fast_is_permutation (testing.hpp:108-120): the vector of flags as a
      function, [None] once it has returned false. *)
  Definition fast_is_permutation (x : tensor) : M V bool :=
    let n := size x in
    r <- foldM (zrange n) (fun b i =>
           match b with
           | None => ret None
           | Some f =>
             j <- load dt (daddr x i) ;;
             ret (if (j <? 0) || (n <=? j) || f j then None
                  else Some (fun q => if q =? j then true else f q))
           end) (Some (fun _ => false)) ;;
    ret (match r with Some _ => true | None => false end).

  (** ** tests/test_plain_la_engine.cpp *)

  (** test_mm, test_mmt, test_mtm (tests/test_plain_la_engine.cpp:7-68); [xs],
      [ys], [zs] are the shapes and [f] the product. *)
  Definition test_product (f : tensor -> tensor -> tensor -> M V unit) (xs ys zs : list Z) (m : Z) : M V bool :=
    with_tensor xs (fun x => with_tensor ys (fun y =>
    fill dt x 2 ;;; fill dt y 3 ;;;
    with_tensor zs (fun z => f x y z ;;; assert_data z (fun _ => m * 6)))).

  Definition test_mm (k m n : Z) : M V bool := test_product (mm dt Zsc) [k; m] [m; n] [k; n] m.
  Definition test_mmt (k m n : Z) : M V bool := test_product (mmt dt Zsc) [k; m] [n; m] [k; n] m.
  Definition test_mtm (k m n : Z) : M V bool := test_product (mtm dt Zsc) [m; k] [m; n] [k; n] m.
  (** test_mv and test_vm (tests/test_plain_la_engine.cpp:70-102). *)
  Definition test_mv (n m : Z) : M V bool := test_product (mv dt Zsc) [n; m] [m] [n] m.
  Definition test_vm (n m : Z) : M V bool := test_product (vm dt Zsc) [m] [m; n] [n] m.

  (** test_mm of tests/test_linag.cpp:8-24. *)
  Definition test_matmul (e : engine) (k m n : Z) : M V bool :=
    with_tensor [k; m] (fun x => with_tensor [m; n] (fun y =>
    fill dt x 2 ;;; fill dt y 3 ;;;
    ds <- lift (matmul_shape (tdims x) (tdims y)) ;;
    with_tensor ds (fun z =>
      let b := shape_eqb (tdims z) [k; n] in
      op_matmul dt Zsc e z x y ;;;
      b' <- assert_data z (fun _ => m * 6) ;; ret (b && b')))).

  (** tests/test_add.cpp:6-27. *)
  Definition test_add (n h w c : Z) : M V bool :=
    with_tensor [n; h; w; c] (fun x => with_tensor [n; h; w; c] (fun y =>
    fill dt x 1 ;;; fill dt y 2 ;;;
    ds <- lift (binary_endofunction (tdims x) (tdims y)) ;;
    with_tensor ds (fun z =>
      let b := shape_eqb (tdims z) [n; h; w; c] in
      op_add dt Zsc z x y ;;;
      t <- s_sum dt Zsc z ;;
      ret (b && (t =? n * h * w * c * 3))))).

  (** test_apply_bias_nhwc (tests/test_bias.cpp:6-26) and
      test_apply_bias_nchw (28-48), which differ in the layout of [x]. *)
  Definition test_apply_bias (o : order) (f : Z -> Z -> outcome Z) (xs : list Z) (c a b value : Z) : M V bool :=
    with_tensor xs (fun x => with_tensor [c] (fun y =>
    fill dt x a ;;; fill dt y b ;;;
    ds <- lift (bias_shape o (tdims x) (tdims y)) ;;
    with_tensor ds (fun z =>
      let e := shape_eqb (tdims z) (tdims x) in
      op_bias dt o f z x y ;;;
      e' <- assert_data z (fun _ => value) ;; ret (e && e')))).

  (** tests/test_axpy.cpp:5-22, with the constants 2, 3 and 4 as parameters. *)
  Definition test_axpy (n a x y : Z) : M V bool :=
    with_tensor [] (fun ta => with_tensor [n] (fun tx => with_tensor [n] (fun ty =>
    fill dt ta a ;;; fill dt tx x ;;; fill dt ty y ;;;
    ds <- lift (axpy_shape (tdims tx) (tdims ty)) ;;
    with_tensor ds (fun tz =>
      op_axpy dt Zsc tz ta tx ty ;;;
      assert_all n (fun i => v <- load dt (daddr tz i) ;; ret (v =? a * x + y)))))).

  (** test_transpose (tests/test_transpose.cpp:5-37). *)
  Definition test_transpose (n h w c : Z) : M V bool :=
    let id := fun v : Z => v in
    with_tensor [n; h; w; c] (fun x => with_tensor (tdims x) (fun x1 =>
    with_tensor [n; c; h; w] (fun y => with_tensor (tdims y) (fun y1 =>
    let d := size x in
    iota x 0 ;;;
    to_first dt dt id y x ;;; to_last dt dt id x1 y ;;;
    b1 <- assert_map d id x x1 ;;
    to_first dt dt id y1 x1 ;;;
    b2 <- assert_map d id y y1 ;;
    to_first dt dt (fun v => v + 1) y x ;;; to_last dt dt (fun v => v - 1) x1 y ;;;
    b3 <- assert_map d id x x1 ;;
    to_first dt dt id y1 x1 ;;;
    b4 <- assert_map d (fun v => v - 1) y y1 ;;
    ret (b1 && b2 && b3 && b4))))).

  (** The first block of test_2 (tests/test_concat.cpp:46-59), for channels
      [c1], [c2], [c3] = 3, 4, 5; check_infer (testing.hpp:101-106). *)
  Definition test_concat_nhwc (n h w c1 c2 c3 : Z) : M V bool :=
    with_tensor [n; h; w; c1] (fun x => with_tensor [n; h; w; c2] (fun y =>
    with_tensor [n; h; w; c3] (fun z => with_tensor [n; h; w; c1 + (c2 + c3)] (fun t =>
    ds <- lift (concat_shape 3 (tdims x) [tdims y; tdims z]) ;;
    let b := shape_eqb ds (tdims t) in
    iota x 0 ;;; iota y (size x) ;;; iota z (size x + size y) ;;;
    concat_nhwc3 dt t z x y ;;;
    b' <- fast_is_permutation (flat t) ;;
    ret (b && b'))))).

  (** The second block (tests/test_concat.cpp:60-72). *)
  Definition test_concat_nchw (n h w c1 c2 : Z) : M V bool :=
    with_tensor [n; c1; h; w] (fun x => with_tensor [n; c2; h; w] (fun y =>
    with_tensor [n; c1 + c2; h; w] (fun t =>
    ds <- lift (concat_shape 1 (tdims x) [tdims y]) ;;
    let b := shape_eqb ds (tdims t) in
    iota x 0 ;;; iota y (size x) ;;;
    concat_nchw2 dt t x y ;;;
    b' <- fast_is_permutation (flat t) ;;
    ret (b && b')))).

  (** test_flatten (tests/test_reshape.cpp:6-30). *)
  Definition test_flatten (rs : list nat) (xs : list Z) : M V bool :=
    with_tensor xs (fun x =>
    ys <- lift (copy_flatten_shape rs xs) ;;
    with_tensor ys (fun y => with_tensor (tdims y) (fun gy =>
    gs <- lift (gradient_shape 0 (fun l => copy_flatten_shape rs (nth 0 l [])) (tdims gy) (tdims y) [tdims x]) ;;
    with_tensor gs (fun gx =>
    iota x 1 ;;; iota gy 2 ;;;
    copy_flatten dt y x ;;;
    grad_copy_flatten dt gx gy ;;;
    b <- assert_tensor_eq (flat y) (flat x) ;;
    b' <- assert_tensor_eq (flat gx) (flat gy) ;;
    ret (b && b'))))).

  (** [++counts[x.data()[i]]] over the whole tensor. *)
  Definition count_values (x : tensor) : M V (Z -> Z) :=
    foldM (zrange (size x)) (fun c i =>
      v <- load dt (daddr x i) ;; ret (fun q => if q =? v then c q + 1 else c q)) (fun _ => 0).

  (** test_col2im1d (tests/test_conv1d.cpp:9-43); the padding is 1. *)
  Definition test_col2im1d (p n k st_ r : Z) : M V bool :=
    sp <- lift (new_sample k st_ r p p) ;;
    with_tensor [n] (fun x => with_tensor [n] (fun x1 => with_tensor [n] (fun _ =>
    us <- lift (im2col1d_shape sp (tdims x)) ;;
    with_tensor [nth 0 us 0; k] (fun u =>
    xs <- lift (col2im1d_shape sp (tdims u)) ;;
    let b := shape_eqb xs (tdims x) in
    iota x 1 ;;;
    im2col1d dt Zsc sp u x ;;;
    col2im1d dt Zsc sp x1 u ;;;
    counts <- count_values u ;;
    b' <- assert_all (size x) (fun i =>
            xi <- load dt (daddr x i) ;; v <- load dt (daddr x1 i) ;; ret (xi * counts xi =? v)) ;;
    ret (b && b'))))).

  (** test_conv1d (tests/test_conv1d.cpp:52-81). *)
  Definition test_conv1d (p n k st_ r : Z) : M V bool :=
    let f := mkconv1d st_ r (mkpadding p p) in
    sp <- lift (new_sample k st_ r p p) ;;
    with_tensor [n] (fun x => with_tensor [k] (fun y =>
    us <- lift (im2col1d_shape sp (tdims x)) ;;
    with_tensor us (fun u =>
    zs <- lift (conv1d_shape f (tdims x) (tdims y)) ;;
    with_tensor zs (fun z => with_tensor (tdims z) (fun z1 =>
    iota x 1 ;;; iota y 1 ;;; iota z 1 ;;;
    conv1d dt Zsc f z x y ;;;
    im2col1d dt Zsc sp u x ;;;
    mv dt Zsc u y z1 ;;;
    assert_tensor_eq z z1))))).

  (** One round of affine_grad_test (tests/test_affine_grad.cpp:32-52): whether
      the assertions hold, and the new seed. *)
  Definition affine_round (n : Z) (x y z x1 y1 z1 dx dy dz : tensor) (seed : Z) : M V (bool * Z) :=
    s1 <- gen_test_tensor x seed ;;
    s2 <- gen_test_tensor y s1 ;;
    s3 <- gen_test_tensor dz s2 ;;
    op_add dt Zsc z x y ;;;
    grad_add dt dx dz ;;;
    grad_add dt dy dz ;;;
    op_add dt Zsc x1 x dx ;;;
    op_add dt Zsc y1 y dy ;;;
    op_add dt Zsc z1 z dz ;;;
    b <- with_tensor [n] (fun z2 => op_add dt Zsc z2 x y1 ;;; assert_tensor_eq z1 z2) ;;
    b' <- with_tensor [n] (fun z2 => op_add dt Zsc z2 x1 y ;;; assert_tensor_eq z1 z2) ;;
    ret (b && b', s3).

  (** affine_grad_test (tests/test_affine_grad.cpp:5-54), for [n] = 10,
      [seed] = 1 and 3 [rounds]. *)
  Definition test_affine_grad (n seed rounds : Z) : M V bool :=
    with_tensor [n] (fun x => with_tensor [n] (fun y => with_tensor [n] (fun z =>
    with_tensor [n] (fun x1 => with_tensor [n] (fun y1 => with_tensor [n] (fun z1 =>
    with_tensor [n] (fun dx => with_tensor [n] (fun dy => with_tensor [n] (fun dz =>
    r <- foldM (zrange rounds) (fun a _ =>
           r <- affine_round n x y z x1 y1 z1 dx dy dz (snd a) ;;
           ret (fst a && fst r, snd r)) (true, seed) ;;
    ret (fst r)))))))))).

  (** test_linear_sample_ksr_nm (tests/test_linear_sample_trait.cpp:4-21): the
      vector [x] is a block of [n] cells. *)
  Definition test_linear_sample (k st_ r n m : Z) : M V bool :=
    sp <- lift (new_sample k st_ r 0 0) ;;
    m' <- lift (sample_len I32 sp n) ;;
    p0 <- lift (sample_pos I32 sp 0 0) ;;
    p1 <- lift (sample_pos I32 sp (m - 1) (k - 1)) ;;
    let b := (m' =? m) && (p0 =? 0) && (p1 =? n - 1) in
    with_tensor [n] (fun x =>
    fill dt x 0 ;;;
    for_ (zrange m) (fun j => for_ (zrange k) (fun i =>
      p <- lift (sample_pos I32 sp j i) ;;
      v <- load dt (daddr x p) ;;
      store dt (daddr x p) (v + 1))) ;;;
    t <- s_sum dt Zsc x ;;
    v0 <- load dt (daddr x 0) ;;
    v1 <- load dt (daddr x (n - 1)) ;;
    ret (b && (t =? m * k) && (v0 =? 1) && (v1 =? 1))).

  (** reduce_test (tests/test_reduce.cpp:15-37), as properties of the iota
      matrix: row sums and column sums. *)
  Definition test_reduce (m n : Z) (rows cols : Z -> Z) : M V bool :=
    with_tensor [m; n] (fun x =>
    iota x 0 ;;;
    with_tensor [m] (fun y => with_tensor [n] (fun z =>
    inner_contraction dt Zsc y x ;;;
    b <- assert_data y rows ;;
    outter_contraction dt Zsc z x ;;;
    b' <- assert_data z cols ;;
    ret (b && b')))).
End Tests.
