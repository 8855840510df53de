(** How far rounding may move the results of a VGG network. *)
From Coq Require Import ZArith List Reals String.
From Flocq Require Import Core BinarySingleNaN.
From Verif Require Import Base Scalar RealScalar LayersSpec Backprop StableSpec FloatSpec FloatSumSpec NetFloatSpec.
Import ListNotations.
Open Scope Z_scope.

(** ** The parameters of a network *)

(** A layer with parameters: its name, the shape of the inputs that lead to one
    output, the number of outputs (filters, columns).  The weights have the
    shape [ins ++ [d]], the bias has the shape [d]. *)
Record params : Type := mkparams { p_name : string; p_ins : list Z; p_outs : Z }.

Definition last_size (c : Z) (b : list (Z * string)) : Z := fold_left (fun _ v => fst v) b c.

Fixpoint conv_params (c : Z) (b : list (Z * string)) : list params :=
  match b with
  | [] => []
  | (d, name) :: b => mkparams name [3; 3; c] d :: conv_params d b
  end.
Fixpoint block_params (c : Z) (bs : list (list (Z * string))) : list params :=
  match bs with
  | [] => []
  | b :: bs => conv_params c b ++ block_params (last_size c b) bs
  end.
Fixpoint hidden_params (l : Z) (hs : list (Z * string)) : list params :=
  match hs with
  | [] => []
  | (d, name) :: hs => mkparams name [l] d :: hidden_params d hs
  end.

(** The inputs of the first dense layer: every block halves the image. *)
Definition features (h w c : Z) (bs : list (list (Z * string))) : Z :=
  h / 2 ^ Z.of_nat (List.length bs) * (w / 2 ^ Z.of_nat (List.length bs)) * fold_left last_size bs c.

(** All layers with parameters, in the order of the calls. *)
Definition net_params (h w c : Z) (bs : list (list (Z * string))) (hs : list (Z * string)) (k : Z * string) : list params :=
  let l := features h w c bs in
  block_params c bs ++ hidden_params l hs ++ [mkparams (snd k) [last_size l hs] (fst k)].

(** ** Bounds *)

Section VggFloatSpec.
  Context (prec emax : Z).
  Notation flt := (binary_float prec emax).
  Notation u := (unit_roundoff prec).
  Notation eta := (half_tiny prec emax).

  (** Weights and bias are finite, the absolute values of the weights of one
      output sum to at most [a], the bias is at most [b]. *)
  Definition params_ok (q : params) (W B : list Z -> flt) (a b : R) : Prop :=
    finite_on prec emax (p_ins q ++ [p_outs q]) W /\ finite_on prec emax [p_outs q] B /\
    (0 <= a)%R /\ (0 <= b)%R /\ bounded [p_outs q] b (reals prec emax B) /\
    forall t, 0 <= t < p_outs q ->
      (sum_over Rsc (indices (p_ins q)) (fun ix => Rabs (B2R (W (ix ++ [t])))) <= a)%R.

  (** The initialisers p("name_W") and p("name_b") provide parameters within
      these bounds. *)
  Definition stored {V} (dt : dtype V flt) (p : string -> tensor -> M V unit) (W B : string -> list Z -> flt)
      (A D : string -> R) (q : params) : Prop :=
    1 <= p_outs q < 2 ^ 32 /\
    fills dt (p (p_name q ++ "_W")%string) (p_ins q ++ [p_outs q]) (W (p_name q)) /\
    fills dt (p (p_name q ++ "_b")%string) [p_outs q] (B (p_name q)) /\
    params_ok q (W (p_name q)) (B (p_name q)) (A (p_name q)) (D (p_name q)).

  (** The roundings of one output when no input exceeds [m]: those of the sum of
      products and that of adding the bias. *)
  Definition params_rounding (q : params) (a b m : R) : R :=
    let r := dot_bound prec emax (Z.to_nat (prod (p_ins q))) (a * m) in
    (r + u * (a * m + r + b))%R.

  (** After a list of layers: a bound of the computed numbers, the distance of
      the computed from the exact numbers, no overflow.  ([m] and [e]: the same
      before the first of them.) *)
  Section Chain.
    Context (A B : string -> R).
    Fixpoint chain_size (qs : list params) (m : R) : R :=
      match qs with
      | [] => m
      | q :: qs =>
          let a := A (p_name q) in let b := B (p_name q) in
          chain_size qs (a * m + b + params_rounding q a b m)%R
      end.
    Fixpoint chain_error (qs : list params) (m e : R) : R :=
      match qs with
      | [] => e
      | q :: qs =>
          let a := A (p_name q) in let b := B (p_name q) in
          chain_error qs (a * m + b + params_rounding q a b m) (a * e + params_rounding q a b m)
      end.
    Fixpoint chain_room (qs : list params) (m : R) : Prop :=
      match qs with
      | [] => True
      | q :: qs =>
          let a := A (p_name q) in let b := B (p_name q) in
          (a * m + b + params_rounding q a b m + eta < bpow radix2 emax)%R /\
          chain_room qs (a * m + b + params_rounding q a b m)%R
      end.
    (** The distance of the computed from the exact probabilities of [k] classes,
        [d] being the accuracy of std::exp. *)
    Definition vgg_error (d : R) (qs : list params) (k : Z) (m e : R) : R :=
      (/ 2 * chain_error qs m e + rounding prec emax d (LSoftmax 1 k) (/ 2) 0 (chain_size qs m))%R.
    Definition vgg_room (d : R) (exp_ : flt -> flt) (qs : list params) (k : Z) (m : R) : Prop :=
      chain_room qs m /\ room prec emax d exp_ (LSoftmax 1 k) (/ 2) 0 (chain_size qs m).
  End Chain.
End VggFloatSpec.
