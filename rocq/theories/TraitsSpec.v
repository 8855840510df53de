(** Specification of the sampling geometry, independent of the code.

    doc/linear-sample.tex: a kernel of [k] taps with rate [r] spans
    [r*(k-1)+1] consecutive positions; windows start every [s] positions. *)
From Coq Require Import ZArith List.
Import ListNotations.
Open Scope Z_scope.

(** Number of consecutive positions spanned by a window. *)
Definition span (k r : Z) : Z := r * (k - 1) + 1.

(** doc/linear-sample.tex, "valid configuration". *)
Definition valid_config (k s r pl pr n m : Z) : Prop :=
  1 <= m /\ s * (m - 1) = (n + pl + pr) - span k r.

(** Position of tap [t] of window [j] in the padded input. *)
Definition tap (s r j t : Z) : Z := j * s + t * r.

(** Padded position [i] shows the input element [q] (of [n]). *)
Definition shows (pl n i q : Z) : Prop := 0 <= q < n /\ i = pl + q.
