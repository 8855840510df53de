(** The expected values written in the repository's unit tests that run on one
    fixed input, computed by the model.  (The parametric tests are C97; the CRC
    values of tests/test_hash.cpp are C50's example.)  Dimension types other than
    uint32_t and int32_t are computed as uint32_t; the values are small. *)
From Coq Require Import ZArith List QArith String.
From Verif Require Import Base Traits Scalar Elem Conv Conv1d Pool Summary Namescope NamescopeSpec Shapes Reshape Utility Init Tests Demo PropsNamescope PropsTests.
Import ListNotations.
Open Scope Z_scope.
Open Scope model_scope.

(** tests/test_traits.cpp. *)
Example test_traits :
  channel_size chw [4; 5; 6] = 4 /\ channel_size hwc [4; 5; 6] = 6 /\
  image_shape chw [4; 5; 6] = [5; 6] /\ image_shape hwc [4; 5; 6] = [4; 5] /\
  channel_size nchw [3; 4; 5; 6] = 4 /\ channel_size nhwc [3; 4; 5; 6] = 6 /\
  image_shape nchw [3; 4; 5; 6] = [5; 6] /\ image_shape nhwc [3; 4; 5; 6] = [4; 5] /\
  filter_shape rscd [3; 4; 5; 6] = [3; 4] /\ filter_in_channel_size rscd [3; 4; 5; 6] = 5 /\
  filter_out_channel_size rscd [3; 4; 5; 6] = 6 /\
  filter_shape dcrs [3; 4; 5; 6] = [5; 6] /\ filter_in_channel_size dcrs [3; 4; 5; 6] = 4 /\
  filter_out_channel_size dcrs [3; 4; 5; 6] = 3.
Proof. repeat split. Qed.

(** tests/test_linear_sample_trait.cpp:48-91. *)
Example test_multi_sample :
  (sps <<- new_multi_k [1; 1] ;; multi_shape sps [10; 11]) = Ret [10; 11] /\
  (sps <<- new_multi_k [1; 2; 3] ;; multi_shape sps [9; 8; 7]) = Ret [9; 7; 5].
Proof. vm_compute. auto. Qed.
Example test_auto_padding :
  valid_padding U32 3 1 1 56 = Ret (mkpadding 0 0) /\ valid_padding U32 3 2 1 56 = Ret (mkpadding 0 1) /\
  same_padding U32 3 1 1 56 = Ret (mkpadding 1 1) /\ same_padding U32 3 2 1 112 = Ret (mkpadding 0 1).
Proof. vm_compute. auto. Qed.

(** tests/test_concat.cpp:4-40. *)
Example test_concat_shape :
  let u := [3; 4] in let v := [5; 4] in
  concat_shape 0 u [v] = Ret [8; 4] /\ concat_shape 0 u [v; u] = Ret [11; 4] /\ concat_shape 0 u [v; u; v] = Ret [16; 4] /\
  let v := [3; 5] in
  concat_shape 1 u [v] = Ret [3; 9] /\ concat_shape 1 u [v; u] = Ret [3; 13] /\ concat_shape 1 u [v; u; v] = Ret [3; 18].
Proof. vm_compute. auto 6. Qed.

(** tests/test_im2col.cpp, tests/test_conv.cpp and the shapes of
    tests/test_pool.cpp. *)
Example test_shapes :
  let sp k := mksample (mkfilter k 1 1) (mkpadding 0 0) in
  im2col_hwrs_shape (sp 3) (sp 5) [32; 64] = Ret [30; 60; 3; 5] /\
  im2col_rshw_shape (sp 3) (sp 5) [32; 64] = Ret [3; 5; 30; 60] /\
  conv_infer new_conv nhwc rscd [2; 128; 128; 3] [3; 3; 3; 8] = Ret [2; 126; 126; 8] /\
  conv_infer (new_conv_p (mkpadding 1 1) (mkpadding 1 1)) nhwc rscd [2; 128; 128; 3] [3; 3; 3; 8] = Ret [2; 128; 128; 8] /\
  conv_infer (new_conv_ps (mkpadding 2 2) (mkpadding 2 2) 4 4) nhwc rscd [2; 128; 128; 3] [4; 4; 3; 8] = Ret [2; 33; 33; 8].
Proof. vm_compute. auto 6. Qed.
Example test_pool_shapes :
  let x := [7; 128; 256; 3] in let y := [7; 3; 128; 256] in
  let zero := mkpadding 0 0 in let one := mkpadding 1 1 in
  (P <<- new_pool ;; pooled_shape nhwc P x) = Ret [7; 64; 128; 3] /\
  (P <<- new_pool_k 4 4 ;; pooled_shape nhwc P x) = Ret [7; 32; 64; 3] /\
  (P <<- new_pool_ks 4 4 2 2 ;; pooled_shape nhwc P x) = Ret [7; 63; 127; 3] /\
  (P <<- new_pool ;; pooled_shape nchw P y) = Ret [7; 3; 64; 128] /\
  (P <<- new_pool_k 4 4 ;; pooled_shape nchw P y) = Ret [7; 3; 32; 64] /\
  (P <<- new_pool_ks 4 4 2 2 ;; pooled_shape nchw P y) = Ret [7; 3; 63; 127] /\
  (P <<- new_pool_kp 3 3 (mkpadding 2 2) one ;; pooled_shape nhwc P x) = Ret [7; 44; 86; 3] /\
  (P <<- new_pool_kps 3 3 one one 1 1 ;; pooled_shape nhwc P x) = Ret [7; 128; 256; 3].
Proof. vm_compute. auto 9. Qed.

(** tests/test_col2im.cpp. *)
Example test_col2im :
  let sp := mksample (mkfilter 2 1 1) (mkpadding 0 0) in
  im2col_hwrsc_shape sp sp [3; 3; 1] = Ret [2; 2; 2; 2; 1] /\ col2im_shape sp sp [2; 2; 2; 2; 1] = Ret [3; 3; 1] /\
  run (iota zt (T_ 0 [3; 3; 1]) 0 ;;; im2col_hwrsc zt Zsc sp sp (T_ 1 [2; 2; 2; 2; 1]) (T_ 0 [3; 3; 1]))
    (demo [repeat 9 9; repeat 9 16]) (T_ 1 [16]) = Some (inits [0; 1; 3; 4; 1; 2; 4; 5; 3; 4; 6; 7; 4; 5; 7; 8]) /\
  run (fill zt (T_ 1 [2; 2; 2; 2; 1]) 1 ;;; col2im zt Zsc sp sp (T_ 0 [3; 3; 1]) (T_ 1 [2; 2; 2; 2; 1]))
    (demo [repeat 9 9; repeat 9 16]) (T_ 0 [9]) = Some (inits [1; 2; 1; 2; 4; 2; 1; 2; 1]).
Proof. vm_compute. auto. Qed.

(** tests/test_pool.cpp: test_hw, test_hwc (its first channel values), and
    test_mean. *)
Example test_pool :
  let low := - 2 ^ 31 in
  run (iota zt (T_ 0 [4; 4]) 0 ;;; P <- lift new_pool ;; op_pool_hw zt (max_acc Zsc low) P (T_ 1 [2; 2]) (T_ 0 [4; 4]))
    (demo [repeat 9 16; repeat 9 4]) (T_ 1 [4]) = Some (inits [5; 7; 13; 15]) /\
  run (for_ (indices [6; 4; 4]) (arg3 (fun k i j => set_ zt (T_ 0 [4; 4; 6]) [i; j; k] (16 * k + 4 * i + j))) ;;;
       P <- lift new_pool ;; op_pool_hwc zt (max_acc Zsc low) P (T_ 1 [2; 2; 6]) (T_ 0 [4; 4; 6]))
    (demo [repeat 9 96; repeat 9 24]) (T_ 1 [24])
    = Some (inits (flat_map (fun b => map (fun i => b + 16 * i) [0; 1; 2; 3; 4; 5]) [5; 7; 13; 15])) /\
  run (iota zt (T_ 0 [4; 4]) 0 ;;; op_add zt Zsc (T_ 0 [4; 4]) (T_ 0 [4; 4]) (T_ 0 [4; 4]) ;;;
       P <- lift new_pool ;; op_pool_hw zt (mean_acc Zsc div_i32) P (T_ 1 [2; 2]) (T_ 0 [4; 4]))
    (demo [repeat 9 16; repeat 9 4]) (T_ 1 [4]) = Some (inits [5; 9; 21; 25]).
Proof. vm_compute. auto. Qed.

(** tests/test_summary.cpp over the rationals, without the square root. *)
Example test_summary :
  let qz := fun z => Qmake z 1 in
  run (scalar_summaries qt [s_min qt Qsc; s_max qt Qsc; s_span qt Qsc; s_sum qt Qsc; s_mean qt Qsc (div_float Qsc);
      s_var qt Qsc (div_float Qsc); s_adj qt Qsc Qabs.Qabs] (T_ 1 [7]) (T_ 0 [10]))
    (demo [map qz [0; 1; 2; 3; 4; 5; 6; 7; 8; 9]; repeat (qz 0) 7]) (T_ 1 [7])
    = Some (inits [qz 0; qz 9; qz 9; qz 45; Qmake 9 2; Qmake 33 4; qz 9]).
Proof. vm_compute. reflexivity. Qed.

(** tests/test_utility.cpp:24-40. *)
Example test_similarity :
  let l := map (fun z => Qmake z 1) (zrange 100) in
  run (op_similarity qt Qsc qt (fun a b => negb (Qeq_bool a b)) (T_ 2 []) (T_ 0 [100]) (T_ 1 [100]))
    (demo [l; Qmake 77 1 :: tl l; [Qmake 0 1]]) (T_ 2 [1]) = Some (inits [Qmake 99 100]).
Proof. vm_compute. reflexivity. Qed.

(** tests/test_namescope.cpp. *)
Example test_namescope :
  exec (Seq (With (s_ "model") (With (s_ "l1") (Seq (AskName (s_ "b1")) AskPath))) (Seq AskPath (AskName (s_ "xxx"))))
    (mkctx (s_ "::") []) =
  ([s_ "model::l1::b1"; s_ "model::l1"; s_ ""; s_ "xxx"], Returned, mkctx (s_ "::") []).
Proof. reflexivity. Qed.

(** tests/test_init.cpp:5-17. *)
Example test_init :
  run (init_zeros zt Zsc (T_ 0 [2; 5])) (demo [repeat 9 10]) (T_ 0 [10]) = Some (inits (repeat 0 10)) /\
  run (init_ones zt Zsc (T_ 0 [2; 5])) (demo [repeat 9 10]) (T_ 0 [10]) = Some (inits (repeat 1 10)).
Proof. vm_compute. auto. Qed.

(** The padding of tests/test_layers.cpp:33-41: 7x7 windows with stride 2 and
    same padding halve 224. *)
Example test_conv_layer_same :
  (p <<- padding_same U32 7 2 1 224 ;; sample_len U32 (mksample (mkfilter 7 2 1) p) 224) = Ret 112.
Proof. reflexivity. Qed.
