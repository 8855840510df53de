(** Model of ops/init.hpp and kernels/cpu/init.hpp. *)
From Coq Require Import ZArith List Bool.
From Verif Require Import Base Scalar.
Import ListNotations.
Open Scope Z_scope.
Open Scope model_scope.

Section Constants.
  Context {V T : Type} (dt : dtype V T) (sc : scalar T).

  (** ops::zeros (ops/init.hpp:12-19, kernels/cpu/init.hpp:9-17). *)
  Definition init_zeros (x : tensor) : M V unit := fill dt (flat x) (s0 sc).
  (** ops::ones (ops/init.hpp:21-30, kernels/cpu/init.hpp:19-27). *)
  Definition init_ones (x : tensor) : M V unit := fill dt (flat x) (s1 sc).
  (** ops::constant (ops/init.hpp:32-45, kernels/cpu/init.hpp:41-50). *)
  Definition init_constant (v : T) (x : tensor) : M V unit := fill dt (flat x) v.
  (** ops::uniform_constant (ops/init.hpp:47-55, kernels/cpu/init.hpp:29-39). *)
  Definition init_uniform (x : tensor) : M V unit :=
    v <- lift (sdiv sc (s1 sc) (sofZ sc (size (flat x)))) ;; fill dt (flat x) v.
End Constants.

(** ops::truncated_normal (ops/init.hpp:57-98).  [D] is double, [T] the element
    type (float or double); [up] and [down] the conversions.  [G] is the state
    of the random engine together with the distribution object, [next sd]
    one call d(engine) for standard deviation [sd]. *)
Section TruncatedNormal.
  Context {V T D G : Type} (dt : dtype V T) (di : dtype V Z) (sd : scalar D).
  Context (fabs : D -> D) (up : T -> D) (down : D -> T) (next : T -> G -> T * G).

  (** bound_ (ops/init.hpp:76). *)
  Definition tn_bound (stddev : D) : D := smul sd (sofZ sd 2) (fabs stddev).

  (** std::fabs(v) > bound_ (ops/init.hpp:68). *)
  Definition exceeds (stddev : D) (v : T) : bool := sltb sd (tn_bound stddev) (fabs (up v)).

  (** The lambda (ops/init.hpp:66-70); None when [fuel] draws were all rejected. *)
  Fixpoint draw (fuel : nat) (stddev : D) (g : G) : option (T * G) :=
    match fuel with
    | O => None
    | S fuel => let (v, g') := next (down stddev) g in
                if exceeds stddev v then draw fuel stddev g' else Some (v, g')
    end.

  (** std::generate(y.data(), y.data_end(), ...); None when [fuel] did not
      suffice for some element. *)
  Fixpoint generate (fuel : nat) (stddev : D) (y : tensor) (os : list Z) (g : G) : M V (option G) :=
    match os with
    | [] => ret (Some g)
    | o :: os => match draw fuel stddev g with
                 | None => ret None
                 | Some (v, g') => store dt (daddr y o) v ;;; generate fuel stddev y os g'
                 end
    end.

  (** The private operator() (ops/init.hpp:62-71); std::normal_distribution
      requires a positive standard deviation. *)
  Definition tn_engine (fuel : nat) (stddev : D) (y : tensor) (g : G) : M V (option G) :=
    if sltb sd (s0 sd) (up (down stddev)) then generate fuel stddev y (zrange (size y)) g else undef.

  (** Unseeded (ops/init.hpp:79-86): [rd] is the number drawn from
      std::random_device, [mk] constructs the engine. *)
  Definition tn_random (mk : Z -> G) (rd : Z) (fuel : nat) (stddev : D) (y : tensor) : M V (option G) :=
    tn_engine fuel stddev y (mk rd).

  (** Seeded (ops/init.hpp:88-97); gen.seed(v) leaves the engine as mt19937(v)
      would construct it. *)
  Definition tn_seeded (mk : Z -> G) (rd : Z) (fuel : nat) (stddev : D) (y x : tensor) : M V (option G) :=
    let gen := mk rd in
    v <- load di (daddr x 0) ;;
    let gen := (fun _ : G => mk v) gen in
    tn_engine fuel stddev y gen.
End TruncatedNormal.
