(** Specification of pooling, independent of the code. *)
From Coq Require Import ZArith List Bool.
From Verif Require Import Base Traits TraitsSpec Scalar ConvSpec.
Import ListNotations.
Open Scope Z_scope.

(** The pixels of an image of [h] x [w] covered by window (i, j), in row-major
    order. *)
Definition window (H W : sample) (h w i j : Z) : list (Z * Z) :=
  List.filter (fun p => inb h (fst p) && inb w (snd p))
    (map (arg2 (fun u v => (wpos H i u, wpos W j v)))
         (indices [ksize (sfilter H); ksize (sfilter W)])).

(** [v] is the greatest element of [l]. *)
Definition greatest {T} (lt : T -> T -> bool) (l : list T) (v : T) : Prop :=
  In v l /\ forall x, In x l -> lt v x = false.

(** A strict weak order on the values in [dom] (for floating point: the values
    that are not NaN; -0 and +0 are different but unordered). *)
Definition weak_order {T} (dom : T -> Prop) (lt : T -> T -> bool) : Prop :=
  (forall a, dom a -> lt a a = false) /\
  (forall a b c, dom a -> dom b -> dom c -> lt a b = true -> lt b c = true -> lt a c = true) /\
  (forall a b c, dom a -> dom b -> dom c -> lt a b = false -> lt b c = false -> lt a c = false).

(** An axis of length [n] sampled by [m] windows, valid configuration or not,
    whose positions all fit in uint32_t. *)
Definition axis_fits (sp : sample) (n m : Z) : Prop :=
  let k := ksize (sfilter sp) in let s := stride (sfilter sp) in let r := rate (sfilter sp) in
  let pl := left_ (spadding sp) in
  1 <= k /\ 1 <= s /\ 1 <= r /\ 0 <= pl /\ 0 <= n /\ 0 <= m /\
  pl + n < 2 ^ 32 /\ tap s r (m - 1) (k - 1) < 2 ^ 32.

(** The same axis without padding. *)
Definition unpadded (sp : sample) : sample := mksample (sfilter sp) (mkpadding 0 0).

(** Constructor arguments and an image size whose padded lengths fit in
    uint32_t. *)
Definition pool_args (kh kw : Z) (ph pw : padding) (h w : Z) : Prop :=
  0 <= left_ ph /\ 0 <= right_ ph /\ 0 <= left_ pw /\ 0 <= right_ pw /\ 0 <= h /\ 0 <= w /\
  kh < 2 ^ 32 /\ kw < 2 ^ 32 /\
  left_ ph + h + right_ ph < 2 ^ 32 /\ left_ pw + w + right_ pw < 2 ^ 32.
