(** Model of ops/summary.hpp and ops/reduce.hpp. *)
From Coq Require Import ZArith List Bool.
From Verif Require Import Base Scalar Pool.
Import ListNotations.
Open Scope Z_scope.
Open Scope model_scope.

Section Summary.
  Context {V T : Type} (dt : dtype V T) (sc : scalar T).
  (** [div_n]: R / uint32_t (see Pool.v); [abs_], [sqrt_]: std::abs, std::sqrt. *)
  Context (div_n : T -> Z -> outcome T) (abs_ sqrt_ : T -> T).

  (** std::accumulate(x.data(), x.data() + size, init, f). *)
  Definition accumulate {B} (f : B -> T -> B) (init : B) (x : tensor) : M V B :=
    foldM (zrange (size x)) (fun acc i => v <- load dt (daddr x i) ;; ret (f acc v)) init.

  (** The elements after the first one. *)
  Definition accumulate_tl {B} (f : B -> T -> B) (init : B) (x : tensor) : M V B :=
    foldM (zrange (size x - 1)) (fun acc i => v <- load dt (daddr x (i + 1)) ;; ret (f acc v)) init.

  (** summaries::min (ops/summary.hpp:12-18): *std::min_element; dereferences the
      end of an empty range. *)
  Definition s_min (x : tensor) : M V T :=
    if size x =? 0 then undef
    else m <- load dt (daddr x 0) ;; accumulate_tl (fun m v => if sltb sc v m then v else m) m x.

  (** summaries::max (ops/summary.hpp:20-26): *std::max_element. *)
  Definition s_max (x : tensor) : M V T :=
    if size x =? 0 then undef
    else m <- load dt (daddr x 0) ;; accumulate_tl (fun m v => if sltb sc m v then v else m) m x.

  (** summaries::span (ops/summary.hpp:28-36): std::minmax_element returns the
      first smallest and the last largest element. *)
  Definition s_span (x : tensor) : M V T :=
    if size x =? 0 then undef
    else
      m <- load dt (daddr x 0) ;;
      mm <- accumulate_tl (fun (mm : T * T) v =>
              (if sltb sc v (fst mm) then v else fst mm,
               if sltb sc v (snd mm) then snd mm else v)) (m, m) x ;;
      ret (ssub sc (snd mm) (fst mm)).

  (** summaries::sum (ops/summary.hpp:38-45). *)
  Definition s_sum (x : tensor) : M V T := accumulate (sadd sc) (s0 sc) x.

  (** summaries::mean (ops/summary.hpp:47-53). *)
  Definition s_mean (x : tensor) : M V T :=
    t <- s_sum x ;; lift (div_n t (size x)).

  (** summaries::variance (ops/summary.hpp:55-68). *)
  Definition s_var (x : tensor) : M V T :=
    t <- s_sum x ;;
    m <- lift (div_n t (size x)) ;;
    q <- accumulate (fun acc xi => let d := ssub sc xi m in sadd sc acc (smul sc d d)) (s0 sc) x ;;
    lift (div_n q (size x)).

  (** summaries::standard_deviation (ops/summary.hpp:70-77). *)
  Definition s_std (x : tensor) : M V T := v <- s_var x ;; ret (sqrt_ v).

  (** summaries::adj_diff_sum (ops/summary.hpp:79-87): std::inner_product from
      data()+1 to data()+size, which never meets its end for an empty tensor. *)
  Definition s_adj (x : tensor) : M V T :=
    if size x =? 0 then undef
    else foldM (zrange (size x - 1)) (fun acc i =>
           x2 <- load dt (daddr x (i + 1)) ;;
           x1 <- load dt (daddr x i) ;;
           ret (sadd sc acc (abs_ (ssub sc x2 x1)))) (s0 sc).

  (** The values of a pack expansion in a braced list, left to right. *)
  Fixpoint evals (fs : list (tensor -> M V T)) (x : tensor) : M V (list T) :=
    match fs with
    | [] => ret []
    | f :: fs => v <- f x ;; vs <- evals fs x ;; ret (v :: vs)
    end.

  (** std::copy of a list to consecutive cells. *)
  Fixpoint copy_list (vs : list T) (t : tensor) (i : Z) : M V unit :=
    match vs with
    | [] => ret tt
    | v :: vs => store dt (daddr t i) v ;;; copy_list vs t (i + 1)
    end.

  (** scalar_summaries (ops/summary.hpp:94-111). *)
  Definition scalar_summaries (fs : list (tensor -> M V T)) (y x : tensor) : M V unit :=
    vs <- evals fs x ;; copy_list vs y 0.
  Definition scalar_summaries_shape (fs : list (tensor -> M V T)) : list Z := [Z.of_nat (length fs)].

  (** ops::mean (ops/reduce.hpp:9-24); [r] is the rank of the result. *)
  Definition op_mean (r : nat) (y x : tensor) : M V unit :=
    let xf := as_matrix r x in
    for_ (zrange (nth_dim xf 0)) (fun i =>
      v <- s_mean (sub xf i) ;;
      store dt (daddr y i) v).
End Summary.
