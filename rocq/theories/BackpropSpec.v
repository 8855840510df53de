(** Specification of backpropagation: the function computed by a network and
    the derivative of a function of its results. *)
From Coq Require Import ZArith List Bool Reals.
From Coquelicot Require Import Coquelicot.
From Verif Require Import Base Traits Scalar RealScalar LinAlg Shapes Conv ConvSpec ElemSpec ActivationSpec Backprop.
Import ListNotations.
Open Scope Z_scope.

(** ** Shapes *)

Definition in_shape (L : layer) : list Z :=
  match L with
  | LAdd ds | LMul ds | LRelu ds | LFlatten _ ds => ds
  | LMatmul _ m l _ => [m; l]
  | LBias m n | LSoftmax m n => [m; n]
  | LBiasImg n h w c => [n; h; w; c]
  | LConv _ _ n h w c _ _ _ _ _ => [n; h; w; c]
  end.

Definition out_shape (L : layer) : list Z :=
  match L with
  | LAdd ds | LMul ds | LRelu ds => ds
  | LMatmul _ m _ n => [m; n]
  | LBias m n | LSoftmax m n => [m; n]
  | LBiasImg n h w c => [n; h; w; c]
  | LConv _ _ n _ _ _ _ _ d h' w' => [n; h'; w'; d]
  | LFlatten rs ds => flatten_shape rs ds
  end.

(** A layer without a parameter has an empty one. *)
Definition par_shape (L : layer) : list Z :=
  match L with
  | LAdd ds | LMul ds => ds
  | LMatmul _ _ l n => [l; n]
  | LBias _ n => [n]
  | LBiasImg _ _ _ c => [c]
  | LConv _ _ _ _ _ c r s d _ _ => [r; s; c; d]
  | LRelu _ | LSoftmax _ _ | LFlatten _ _ => [0]
  end.

(** The sizes of a layer are possible: no size is negative, the windows of a
    convolution fit, the groups of a reshaping cover the axes; CBLAS wants
    sizes of at least 1. *)
Definition sizes_ok (e : engine) (l : list Z) : Prop :=
  List.Forall (fun d => match e with Builtin => 0 <= d | Cblas => 1 <= d end) l.

Definition layer_ok (L : layer) : Prop :=
  match L with
  | LAdd ds | LMul ds | LRelu ds => List.Forall (fun d => 0 <= d) ds
  | LMatmul e m l n => sizes_ok e [m; l; n]
  | LBias m n | LSoftmax m n => 0 <= m /\ 0 <= n
  | LBiasImg n h w c => 0 <= n /\ 0 <= h /\ 0 <= w /\ 0 <= c
  | LConv e C n h w c r s d h' w' =>
      axis_ok (axis_of (h_trait C) r) h h' /\ axis_ok (axis_of (w_trait C) s) w w' /\
      sizes_ok e [n; c; d] /\ h * w * c <= 2 ^ 31
  | LFlatten rs ds => List.Forall (fun d => 0 <= d) ds /\ fold_right Nat.add 0%nat rs = length ds
  end.

(** Every layer reads what the one before it produces; [d0] is the shape of the
    input. *)
Fixpoint net_ok (d0 : list Z) (net : list layer) : Prop :=
  match net with
  | [] => List.Forall (fun d => 0 <= d) d0
  | L :: net => layer_ok L /\ in_shape L = d0 /\ net_ok (out_shape L) net
  end.

(** The shape of the result. *)
Fixpoint net_out (d0 : list Z) (net : list layer) : list Z :=
  match net with
  | [] => d0
  | L :: net => net_out (out_shape L) net
  end.

(** Shapes of the tensors of a network whose layers are numbered from [k];
    [None] when the tensor is not used. *)
Fixpoint net_nodes (k : nat) (d0 : list Z) (net : list layer) (c : node) : option (list Z) :=
  match net with
  | [] => match c with Out i | GOut i => if Nat.eqb i k then Some d0 else None | _ => None end
  | L :: net =>
      match c with
      | Out i | GOut i => if Nat.eqb i k then Some d0 else net_nodes (S k) (out_shape L) net c
      | Par i | GPar i => if Nat.eqb i k then Some (par_shape L) else net_nodes (S k) (out_shape L) net c
      | _ => None
      end
  end.

(** Together with the variables of the loss of [n] examples and [k] classes. *)
Definition step_nodes (d0 : list Z) (net : list layer) (n k : Z) (c : node) : option (list Z) :=
  match c with
  | Labels => Some [n; k]
  | Losses | GLosses => Some [n]
  | Loss => Some []
  | _ => net_nodes 0 d0 net c
  end.

(** The tensors have these shapes and share no memory. *)
Definition nodes_ok (sh : node -> option (list Z)) (E : node -> tensor) : Prop :=
  (forall c ds, sh c = Some ds -> tdims (E c) = ds) /\
  (forall c c', sh c <> None -> sh c' <> None -> c <> c' -> disjoint (E c) (E c')).

(** Only the tensors in [P] may have changed. *)
Definition only_nodes {V} (P : node -> Prop) (E : node -> tensor) (s s' : st V) : Prop :=
  nextb s <= nextb s' /\
  forall p, (forall c, P c -> ~ foot (E c) p) -> cells s' p = cells s p.

(** ** Values *)

Notation tens := (list Z -> R).

(** The function computed by a layer with parameter [P] and input [X]. *)
Definition layer_fn (eps : R) (L : layer) (P X : tens) : tens :=
  match L with
  | LAdd _ => fun ix => (X ix + P ix)%R
  | LMul _ => fun ix => (X ix * P ix)%R
  | LMatmul _ _ l _ => arg2 (fun i j => rsum l (fun k => X [i; k] * P [k; j])%R)
  | LBias _ _ => arg2 (fun i j => (X [i; j] + P [j])%R)
  | LBiasImg _ _ _ _ => arg4 (fun l i j c => (X [l; i; j; c] + P [c])%R)
  | LConv _ C _ h w c r s _ _ _ =>
      conv_spec_nhwc Rsc (axis_of (h_trait C) r) (axis_of (w_trait C) s) h w r s c X P
  | LRelu _ => fun ix => Rmax (X ix) 0
  | LSoftmax _ n => arg2 (fun i j => softmax_fn eps n (fun k => X [i; k]) j)
  | LFlatten rs ds => fun ix => X (expand ds (offset (flatten_shape rs ds) ix))
  end.

(** The function computed by the layers number k, k+1, ... *)
Fixpoint net_fn (eps : R) (k : nat) (net : list layer) (P : nat -> tens) (X : tens) : tens :=
  match net with
  | [] => X
  | L :: net => net_fn eps (S k) net P (layer_fn eps L (P k) X)
  end.

(** The input of the layer is not at a corner of relu or of the lower bound of
    softmax. *)
Definition smooth (eps : R) (L : layer) (X : tens) : Prop :=
  match L with
  | LRelu ds => forall ix, valid ds ix -> X ix <> 0%R
  | LSoftmax m n => forall i, 0 <= i < m -> unclamped eps n (fun k => X [i; k])
  | _ => True
  end.

Fixpoint net_smooth (eps : R) (k : nat) (net : list layer) (P : nat -> tens) (X : tens) : Prop :=
  match net with
  | [] => True
  | L :: net => smooth eps L X /\ net_smooth eps (S k) net P (layer_fn eps L (P k) X)
  end.

(** Sum over the layers of the inner products of gradients and directions. *)
Fixpoint par_inner (k : nat) (net : list layer) (G D : nat -> tens) : R :=
  match net with
  | [] => 0%R
  | L :: net => (inner Rsc (par_shape L) (G k) (D k) + par_inner (S k) net G D)%R
  end.

(** The point [X + t D]. *)
Definition along (X D : tens) (t : R) : tens := fun ix => (X ix + t * D ix)%R.

(** [GP] and [GX] are the gradient of [phi] with respect to all the parameters
    and the input: the derivative along every direction is the inner product. *)
Definition net_gradient (d0 : list Z) (net : list layer) (phi : (nat -> tens) -> tens -> R)
  (P : nat -> tens) (X : tens) (GP : nat -> tens) (GX : tens) : Prop :=
  forall (DP : nat -> tens) (DX : tens),
    is_derive (fun t => phi (fun i => along (P i) (DP i) t) (along X DX t)) 0%R
      (par_inner 0 net GP DP + inner Rsc d0 GX DX)%R.

(** The mean cross entropy of [n] rows of [k] numbers and the labels [Y]. *)
Definition mean_loss (n k : Z) (Y Z_ : tens) : R :=
  (rsum n (fun i => xent_fn k (fun j => Y [i; j]) (fun j => Z_ [i; j])) / IZR n)%R.

(** The tensors of the network before a call: all mapped, the parameters with
    values [P], the input [X]. *)
Fixpoint pars_held {V} (dt : dtype V R) (E : node -> tensor) (s : st V) (k : nat) (net : list layer)
  (P : nat -> tens) : Prop :=
  match net with
  | [] => True
  | L :: net => holds dt s (E (Par k)) (P k) /\ pars_held dt E s (S k) net P
  end.

Fixpoint grads_held {V} (dt : dtype V R) (E : node -> tensor) (s : st V) (k : nat) (net : list layer)
  (G : nat -> tens) : Prop :=
  match net with
  | [] => True
  | L :: net => holds dt s (E (GPar k)) (G k) /\ grads_held dt E s (S k) net G
  end.

Definition nodes_mapped {V} (sh : node -> option (list Z)) (E : node -> tensor) (s : st V) : Prop :=
  fresh_ok s /\ forall c, sh c <> None -> mapped s (E c).
