(** Model of the geometry traits: filters, paddings, linear samples and the
    2-D traits built from them, plus the layout (image order) traits. *)
From Coq Require Import ZArith List Bool.
From Verif Require Import Base.
Import ListNotations.
Open Scope Z_scope.
Open Scope model_scope.

(** ** C++ integer types used for dimensions.

    [U32] is uint32_t (wraps modulo 2^32), [I32] is int32_t (overflow is
    undefined behaviour).  *)
Inductive ity : Type := U32 | I32.

Definition norm (t : ity) (x : Z) : outcome Z :=
  match t with
  | U32 => Ret (x mod 2 ^ 32)
  | I32 => if (- 2 ^ 31 <=? x) && (x <? 2 ^ 31) then Ret x else Undef
  end.

Definition iadd (t : ity) (a b : Z) : outcome Z := norm t (a + b).
Definition isub (t : ity) (a b : Z) : outcome Z := norm t (a - b).
Definition imul (t : ity) (a b : Z) : outcome Z := norm t (a * b).
(** C++ division truncates; division by zero is undefined. *)
Definition idiv (t : ity) (a b : Z) : outcome Z :=
  if b =? 0 then Undef else norm t (Z.quot a b).
Definition irem (t : ity) (a b : Z) : outcome Z :=
  if b =? 0 then Undef else norm t (Z.rem a b).

(** Conversion between the two types (modulo 2^32). *)
Definition to_u32 (x : Z) : Z := x mod 2 ^ 32.
Definition to_i32 (x : Z) : Z := (x + 2 ^ 31) mod 2 ^ 32 - 2 ^ 31.

(** Range of the type. *)
Definition fits (t : ity) (x : Z) : Prop :=
  match t with
  | U32 => 0 <= x < 2 ^ 32
  | I32 => - 2 ^ 31 <= x < 2 ^ 31
  end.

(** ** traits/filter.hpp, traits/padding.hpp *)

(** [linear_filter_trait<N>] (traits/filter.hpp:12-72): the three fields. *)
Record filter : Type := mkfilter { ksize : Z; stride : Z; rate : Z }.

(** Constructor [linear_filter_trait(ksize, stride, rate)]
    (traits/filter.hpp:23-41). *)
Definition new_filter (k s r : Z) : outcome filter :=
  if k <? 1 then Exn InvalidArgument
  else if s <? 1 then Exn InvalidArgument
  else if r <? 1 then Exn InvalidArgument
  else Ret (mkfilter k s r).

(** [linear_padding_trait<N>] (traits/padding.hpp:11-21). *)
Record padding : Type := mkpadding { left_ : Z; right_ : Z }.

(** [patch_size()] (traits/filter.hpp:49): [(ksize_ - 1) * rate_ + 1]. *)
Definition patch_size (t : ity) (f : filter) : outcome Z :=
  k1 <<- isub t (ksize f) 1 ;;
  m <<- imul t k1 (rate f) ;;
  iadd t m 1.

(** [padding(n)] (traits/padding.hpp:23-26): [left_ + n + right_]. *)
Definition pad_len (t : ity) (p : padding) (n : Z) : outcome Z :=
  a <<- iadd t (left_ p) n ;;
  iadd t a (right_ p).

(** [padding.inside(i, n)] (traits/padding.hpp:28-33), [&&] short-circuits.
    The arguments are already of type N. *)
Definition pad_inside (t : ity) (p : padding) (i n : Z) : outcome bool :=
  if left_ p <=? i then
    e <<- iadd t (left_ p) n ;;
    Ret (i <? e)
  else Ret false.

(** [padding.unpad(i)] (traits/padding.hpp:35): [i - left_]. *)
Definition pad_unpad (t : ity) (p : padding) (i : Z) : outcome Z := isub t i (left_ p).

(** [filter(n, padding)] (traits/filter.hpp:51-64). *)
Definition filter_len (t : ity) (f : filter) (p : padding) (n : Z) : outcome Z :=
  n_padded <<- pad_len t p n ;;
  ps <<- patch_size t f ;;
  if n_padded <? ps then Exn InvalidArgument (* "linear sample input is too small" *)
  else
    d <<- isub t n_padded ps ;;
    q <<- irem t d (stride f) ;;
    if negb (q =? 0) then Exn InvalidArgument (* "invalid padding" *)
    else
      d2 <<- idiv t d (stride f) ;;
      iadd t d2 1.

(** [filter(j, k)] (traits/filter.hpp:66-71): [j * stride_ + k * rate_]. *)
Definition filter_pos (t : ity) (f : filter) (j k : Z) : outcome Z :=
  a <<- imul t j (stride f) ;;
  b <<- imul t k (rate f) ;;
  iadd t a b.

(** ** traits/linear_sample.hpp *)

(** [linear_sample_trait<dim_t>] (traits/linear_sample.hpp:12-21). *)
Record sample : Type := mksample { sfilter : filter; spadding : padding }.

(** Constructor with explicit left/right padding
    (traits/linear_sample.hpp:87-97); the constructor with one [pad_lr]
    (79-85) is [new_sample k s r p p]. *)
Definition new_sample (k s r pl pr : Z) : outcome sample :=
  f <<- new_filter k s r ;;
  Ret (mksample f (mkpadding pl pr)).

(** static [patch_size(k, r)] (traits/linear_sample.hpp:35). *)
Definition static_patch_size (t : ity) (k r : Z) : outcome Z :=
  k1 <<- isub t k 1 ;;
  m <<- imul t r k1 ;;
  iadd t m 1.

(** static [even_padding(p)] (traits/linear_sample.hpp:37-40). *)
Definition even_padding (t : ity) (p : Z) : outcome padding :=
  h <<- idiv t p 2 ;;
  r <<- isub t p h ;;
  Ret (mkpadding h r).

(** static [valid_padding(k, s, r, n)] (traits/linear_sample.hpp:42-48). *)
Definition valid_padding (t : ity) (k s r n : Z) : outcome padding :=
  ps <<- static_patch_size t k r ;;
  a <<- iadd t ps s ;;
  m <<- irem t n s ;;
  b <<- isub t a m ;;
  p <<- irem t b s ;;
  even_padding t p.

(** static [same_padding(k, s, r, n)] (traits/linear_sample.hpp:50-58). *)
Definition same_padding (t : ity) (k s r n : Z) : outcome padding :=
  ps <<- static_patch_size t k r ;;
  n0 <<- irem t n s ;;
  e <<- iadd t s n0 ;;
  _ <<- ocontract (e <=? ps) ;;
  a <<- isub t ps s ;;
  p <<- isub t a n0 ;;
  even_padding t p.

(** Padding policies (traits/linear_sample.hpp:60-77): functions of
    (k, s, r, n). *)
Definition padding_policy : Type := Z -> Z -> Z -> Z -> outcome padding.
Definition padding_valid (t : ity) : padding_policy := valid_padding t.
Definition padding_same (t : ity) : padding_policy := same_padding t.
Definition padding_fixed (p : padding) : padding_policy := fun _ _ _ _ => Ret p.

(** The four operations of a sample (traits/linear_sample.hpp:111-117). *)
Definition sample_len (t : ity) (sp : sample) (n : Z) : outcome Z :=
  filter_len t (sfilter sp) (spadding sp) n.
Definition sample_pos (t : ity) (sp : sample) (j k : Z) : outcome Z :=
  filter_pos t (sfilter sp) j k.
Definition sample_inside (t : ity) (sp : sample) (i n : Z) : outcome bool :=
  pad_inside t (spadding sp) i n.
Definition sample_unpad (t : ity) (sp : sample) (i : Z) : outcome Z :=
  pad_unpad t (spadding sp) i.

(** ** traits/multi_linear_sample.hpp (rank r, uint32_t dimensions) *)

(** [construct] (traits/multi_linear_sample.hpp:171-180): one sample per axis,
    built from the i-th components; all lists have length r. *)
Fixpoint new_multi (ks : list Z) (ps : list padding) (ss rs : list Z) : outcome (list sample) :=
  match ks, ps, ss, rs with
  | k :: ks', p :: ps', s :: ss', r :: rs' =>
      sp <<- new_sample k s r (left_ p) (right_ p) ;;
      sps <<- new_multi ks' ps' ss' rs' ;;
      Ret (sp :: sps)
  | [], [], [], [] => Ret []
  | _, _, _, _ => Undef (* excluded by the static types *)
  end.

(** Defaults (traits/multi_linear_sample.hpp:52-68): stride 1, rate 1,
    padding 0 on every axis. *)
Definition default_strides (r : nat) : list Z := repeat 1 r.
Definition default_rates (r : nat) : list Z := repeat 1 r.
Definition default_paddings (r : nat) : list padding := repeat (mkpadding 0 0) r.

(** The five constructors (traits/multi_linear_sample.hpp:123-149). *)
Definition new_multi_k (ks : list Z) : outcome (list sample) :=
  new_multi ks (default_paddings (length ks)) (default_strides (length ks))
            (default_rates (length ks)).
Definition new_multi_kp (ks : list Z) (ps : list padding) : outcome (list sample) :=
  new_multi ks ps (default_strides (length ks)) (default_rates (length ks)).
Definition new_multi_ks (ks ss : list Z) : outcome (list sample) :=
  new_multi ks (default_paddings (length ks)) ss (default_rates (length ks)).
Definition new_multi_kps (ks : list Z) (ps : list padding) (ss : list Z) : outcome (list sample) :=
  new_multi ks ps ss (default_rates (length ks)).

(** [operator()(shape)] / [invoke] (traits/multi_linear_sample.hpp:163-187).
    C++ leaves the evaluation order of the axes open; all exceptions are the
    same invalid_argument. *)
Fixpoint multi_shape (sps : list sample) (x : list Z) : outcome (list Z) :=
  match sps, x with
  | sp :: sps', n :: x' =>
      m <<- sample_len U32 sp n ;;
      ms <<- multi_shape sps' x' ;;
      Ret (m :: ms)
  | [], [] => Ret []
  | _, _ => Undef
  end.

(** [get_ksize()] (traits/multi_linear_sample.hpp:158-161, 189-194). *)
Definition multi_ksize (sps : list sample) : list Z :=
  map (fun sp => ksize (sfilter sp)) sps.

(** ** traits/trait_algo.hpp: layouts *)

Inductive order : Type := hw | chw | hwc | nchw | nhwc.
Inductive filter_order : Type := rscd | dcrs.

(** rank_of (trait_algo.hpp:7-14). *)
Definition rank_of (o : order) : nat :=
  match o with hw => 2 | chw | hwc => 3 | nchw | nhwc => 4 end.
(** batch_position (trait_algo.hpp:16-21). *)
Definition batch_position (o : order) : nat := 0.
(** channel_position (trait_algo.hpp:23-32). *)
Definition channel_position (o : order) : nat :=
  match o with chw => 0 | hwc => 2 | nchw => 1 | nhwc => 3 | hw => 0 (* undefined in C++ *) end.
(** height_position (trait_algo.hpp:34-43). *)
Definition height_position (o : order) : nat :=
  match o with chw => 1 | hwc => 0 | nchw => 2 | nhwc => 1 | hw => 0 (* undefined in C++ *) end.
(** width_position (trait_algo.hpp:45-54). *)
Definition width_position (o : order) : nat :=
  match o with chw => 2 | hwc => 1 | nchw => 3 | nhwc => 2 | hw => 1 (* undefined in C++ *) end.
(** bias_position (trait_algo.hpp:56-59). *)
Definition bias_position (o : order) : nat :=
  match o with hw => 1 | _ => channel_position o end.

(** batch_size, channel_size, image_shape (trait_algo.hpp:61-78). *)
Definition batch_size (o : order) (x : list Z) : Z := nth (batch_position o) x 0.
Definition channel_size (o : order) (x : list Z) : Z := nth (channel_position o) x 0.
Definition image_shape (o : order) (x : list Z) : list Z :=
  [nth (height_position o) x 0; nth (width_position o) x 0].

(** Filter positions (trait_algo.hpp:80-106). *)
Definition filter_height_position (o : filter_order) : nat := match o with rscd => 0 | dcrs => 2 end.
Definition filter_width_position (o : filter_order) : nat := match o with rscd => 1 | dcrs => 3 end.
Definition filter_in_channel_position (o : filter_order) : nat := match o with rscd => 2 | dcrs => 1 end.
Definition filter_out_channel_position (o : filter_order) : nat := match o with rscd => 3 | dcrs => 0 end.

(** filter_shape, filter_in_channel_size, filter_out_channel_size
    (trait_algo.hpp:108-125). *)
Definition filter_shape (o : filter_order) (x : list Z) : list Z :=
  [nth (filter_height_position o) x 0; nth (filter_width_position o) x 0].
Definition filter_in_channel_size (o : filter_order) (x : list Z) : Z :=
  nth (filter_in_channel_position o) x 0.
Definition filter_out_channel_size (o : filter_order) (x : list Z) : Z :=
  nth (filter_out_channel_position o) x 0.

(** batched_image_shape (trait_algo.hpp:129-150, 177-183); only nhwc and nchw
    exist in C++. *)
Definition batched_image_shape (o : order) (n : Z) (shp : list Z) (c : Z) : list Z :=
  let h := nth 0 shp 0 in
  let w := nth 1 shp 0 in
  match o with
  | nchw => [n; c; h; w]
  | _ => [n; h; w; c]
  end.

(** conv_filter_shape (trait_algo.hpp:152-173, 185-191). *)
Definition conv_filter_shape (o : filter_order) (c : Z) (shp : list Z) (d : Z) : list Z :=
  let r := nth 0 shp 0 in
  let s := nth 1 shp 0 in
  match o with
  | rscd => [r; s; c; d]
  | dcrs => [d; c; r; s]
  end.

(** ** ops/conv2d_trait.hpp *)

(** [linear_conv_trait] (ops/conv2d_trait.hpp:9-54): padding, stride and rate,
    unchecked until a kernel size is known. *)
Record lconv : Type := mklconv { lpad : padding; lstride : Z; lrate : Z }.

(** [get_sample(ksize)] (ops/conv2d_trait.hpp:56-59). *)
Definition lconv_sample (c : lconv) (k : Z) : outcome sample :=
  new_sample k (lstride c) (lrate c) (left_ (lpad c)) (right_ (lpad c)).

(** [operator()(n, k)] (ops/conv2d_trait.hpp:61). *)
Definition lconv_len (c : lconv) (n k : Z) : outcome Z :=
  sp <<- lconv_sample c k ;;
  sample_len U32 sp n.

(** [conv_trait<hw>] (ops/conv2d_trait.hpp:67-144). *)
Record conv_trait : Type := mkconv { h_trait : lconv; w_trait : lconv }.

(** Constructors (ops/conv2d_trait.hpp:115-135): from paddings, strides and
    rates of the two axes; defaults padding 0, stride 1, rate 1. *)
Definition new_conv_psr (ph pw : padding) (sh sw rh rw : Z) : conv_trait :=
  mkconv (mklconv ph sh rh) (mklconv pw sw rw).
Definition new_conv_ps (ph pw : padding) (sh sw : Z) : conv_trait :=
  new_conv_psr ph pw sh sw 1 1.
Definition new_conv_p (ph pw : padding) : conv_trait := new_conv_ps ph pw 1 1.
Definition new_conv_s (sh sw : Z) : conv_trait :=
  new_conv_ps (mkpadding 0 0) (mkpadding 0 0) sh sw.
Definition new_conv : conv_trait := new_conv_p (mkpadding 0 0) (mkpadding 0 0).

(** [infer<image_order, filter_order>] (ops/conv2d_trait.hpp:146-163). *)
Definition conv_infer (c : conv_trait) (io : order) (fo : filter_order) (x y : list Z)
  : outcome (list Z) :=
  let n := batch_size io x in
  let hw := image_shape io x in
  let rs := filter_shape fo y in
  _ <<- ocontract (filter_in_channel_size fo y =? channel_size io x) ;;
  let d := filter_out_channel_size fo y in
  h' <<- lconv_len (h_trait c) (nth 0 hw 0) (nth 0 rs 0) ;;
  w' <<- lconv_len (w_trait c) (nth 1 hw 0) (nth 1 rs 0) ;;
  Ret (batched_image_shape io n [h'; w'] d).

(** ** ops/pool2d_trait.hpp *)

(** [pool_trait<hw>] (ops/pool2d_trait.hpp:17-35): one sample per axis. *)
Record pool_trait : Type := mkpool { h_sample : sample; w_sample : sample }.

(** Main constructor (ops/pool2d_trait.hpp:92-97): rate 1. *)
Definition new_pool_kps (kh kw : Z) (ph pw : padding) (sh sw : Z) : outcome pool_trait :=
  H <<- new_sample kh sh 1 (left_ ph) (right_ ph) ;;
  W <<- new_sample kw sw 1 (left_ pw) (right_ pw) ;;
  Ret (mkpool H W).
(** (ksize, stride) (ops/pool2d_trait.hpp:82-85): padding 0. *)
Definition new_pool_ks (kh kw sh sw : Z) : outcome pool_trait :=
  new_pool_kps kh kw (mkpadding 0 0) (mkpadding 0 0) sh sw.
(** (ksize, padding) (ops/pool2d_trait.hpp:87-90): stride = ksize. *)
Definition new_pool_kp (kh kw : Z) (ph pw : padding) : outcome pool_trait :=
  new_pool_kps kh kw ph pw kh kw.
(** (ksize) (ops/pool2d_trait.hpp:77-80): stride = ksize. *)
Definition new_pool_k (kh kw : Z) : outcome pool_trait := new_pool_ks kh kw kh kw.
(** () (ops/pool2d_trait.hpp:75, 31): ksize 2x2. *)
Definition new_pool : outcome pool_trait := new_pool_k 2 2.

(** [operator()(shape<2>)] (ops/pool2d_trait.hpp:104-107). *)
Definition pool_shape2 (P : pool_trait) (x : list Z) : outcome (list Z) :=
  h' <<- sample_len U32 (h_sample P) (nth 0 x 0) ;;
  w' <<- sample_len U32 (w_sample P) (nth 1 x 0) ;;
  Ret [h'; w'].

(** [pooled_shape] (ops/pool.hpp:49-55). *)
Definition pooled_shape (o : order) (P : pool_trait) (x : list Z) : outcome (list Z) :=
  hw' <<- pool_shape2 P (image_shape o x) ;;
  Ret (batched_image_shape o (batch_size o x) hw' (channel_size o x)).
