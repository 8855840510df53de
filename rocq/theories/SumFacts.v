(** Algebra of finite sums over a commutative ring of scalars. *)
From Coq Require Import ZArith List Bool Lia ZifyBool Ring_theory Ring Permutation.
From Verif Require Import Base BaseFacts Scalar LinAlgFacts.
Import ListNotations.
Open Scope Z_scope.

Section Sums.
  Context {T : Type} (sc : scalar T) (laws : ring_laws sc).
  Notation zero := (s0 sc).
  Notation "a [+] b" := (sadd sc a b) (at level 50, left associativity).
  Notation "a [*] b" := (smul sc a b) (at level 40, left associativity).
  Let rt : ring_theory (s0 sc) (s1 sc) (sadd sc) (smul sc) (ssub sc) (sneg sc) (@eq T) := laws.
  Add Ring sc_ring : rt.

  Lemma sum_acc : forall {A} (l : list A) (f : A -> T) a0,
    fold_left (fun acc a => acc [+] f a) l a0 = a0 [+] sum_over sc l f.
  Proof.
    intros A l f. unfold sum_over. induction l as [|a l IH]; intros a0; cbn [fold_left].
    - ring.
    - rewrite IH, (IH (zero [+] f a)). ring.
  Qed.

  Lemma sum_nil : forall {A} (f : A -> T), sum_over sc [] f = zero.
  Proof. reflexivity. Qed.

  Lemma sum_cons : forall {A} a (l : list A) (f : A -> T),
    sum_over sc (a :: l) f = f a [+] sum_over sc l f.
  Proof. intros. unfold sum_over at 1. cbn [fold_left]. rewrite sum_acc. ring. Qed.

  Lemma sum_app : forall {A} (l l' : list A) (f : A -> T),
    sum_over sc (l ++ l') f = sum_over sc l f [+] sum_over sc l' f.
  Proof.
    intros A l l' f. induction l as [|a l IH]; cbn [app].
    - rewrite sum_nil. ring.
    - rewrite !sum_cons, IH. ring.
  Qed.

  Lemma sum_flat_map : forall {A B} (g : A -> list B) (l : list A) (f : B -> T),
    sum_over sc (flat_map g l) f = sum_over sc l (fun a => sum_over sc (g a) f).
  Proof.
    intros A B g l f. induction l as [|a l IH]; cbn [flat_map].
    - reflexivity.
    - rewrite sum_app, sum_cons, IH. reflexivity.
  Qed.

  Lemma sum_zero : forall {A} (l : list A), sum_over sc l (fun _ => zero) = zero.
  Proof.
    intros A l. induction l as [|a l IH]; [reflexivity|]. rewrite sum_cons, IH. ring.
  Qed.

  Lemma sum_zero_ext : forall {A} (l : list A) f, (forall a, In a l -> f a = zero) -> sum_over sc l f = zero.
  Proof. intros A l f H. rewrite (sum_over_ext sc l f (fun _ => zero)) by auto. apply sum_zero. Qed.

  Lemma sum_add : forall {A} (l : list A) f g,
    sum_over sc l (fun a => f a [+] g a) = sum_over sc l f [+] sum_over sc l g.
  Proof.
    intros A l f g. induction l as [|a l IH]; [rewrite !sum_nil; ring|]. rewrite !sum_cons, IH. ring.
  Qed.

  Lemma sum_sub : forall {A} (l : list A) f g,
    sum_over sc l (fun a => ssub sc (f a) (g a)) = ssub sc (sum_over sc l f) (sum_over sc l g).
  Proof.
    intros A l f g. induction l as [|a l IH]; [rewrite !sum_nil; ring|]. rewrite !sum_cons, IH. ring.
  Qed.

  Lemma sum_scale_l : forall {A} (l : list A) c f,
    sum_over sc l (fun a => c [*] f a) = c [*] sum_over sc l f.
  Proof.
    intros A l c f. induction l as [|a l IH]; [rewrite !sum_nil; ring|]. rewrite !sum_cons, IH. ring.
  Qed.

  Lemma sum_scale_r : forall {A} (l : list A) c f,
    sum_over sc l (fun a => f a [*] c) = sum_over sc l f [*] c.
  Proof.
    intros A l c f. induction l as [|a l IH]; [rewrite !sum_nil; ring|]. rewrite !sum_cons, IH. ring.
  Qed.

  Lemma sum_swap : forall {A B} (l : list A) (l' : list B) (f : A -> B -> T),
    sum_over sc l (fun a => sum_over sc l' (fun b => f a b))
    = sum_over sc l' (fun b => sum_over sc l (fun a => f a b)).
  Proof.
    intros A B l l' f. induction l as [|a l IH].
    - rewrite sum_nil. symmetry. apply sum_zero_ext. intros. reflexivity.
    - rewrite sum_cons, IH, <- sum_add. apply sum_over_ext. intros b _. rewrite sum_cons. reflexivity.
  Qed.

  Lemma sum_filter : forall {A} (p : A -> bool) (l : list A) f,
    sum_over sc (filter p l) f = sum_over sc l (fun a => if p a then f a else zero).
  Proof.
    intros A p l f. induction l as [|a l IH]; [reflexivity|]. cbn [filter]. rewrite sum_cons, <- IH.
    destruct (p a); [rewrite sum_cons; reflexivity|]. ring.
  Qed.

  Lemma sum_perm : forall {A} (l l' : list A) f, Permutation l l' -> sum_over sc l f = sum_over sc l' f.
  Proof.
    intros A l l' f H. induction H; auto.
    - rewrite !sum_cons, IHPermutation. reflexivity.
    - rewrite !sum_cons. ring.
    - congruence.
  Qed.

  (** A sum with one non-zero term. *)
  Lemma sum_single : forall {A} (l : list A) (a : A) f, NoDup l -> In a l ->
    (forall b, In b l -> b <> a -> f b = zero) -> sum_over sc l f = f a.
  Proof.
    intros A l a f ND Ha Hz. induction l as [|b l IH]; [destruct Ha|].
    rewrite sum_cons. inversion ND as [|? ? Nb ND']; subst. destruct Ha as [->|Ha].
    - rewrite sum_zero_ext; [ring|]. intros c Hc. apply Hz; [right; auto|]. intros ->. auto.
    - rewrite IH; auto.
      + rewrite Hz; [ring|left; auto|]. intros ->. auto.
      + intros c Hc Ne. apply Hz; auto. right; auto.
  Qed.

  Lemma sum_pick : forall n i (F : Z -> T),
    sum_over sc (zrange n) (fun q => if i =? q then F q else zero)
    = if (0 <=? i) && (i <? n) then F i else zero.
  Proof.
    intros n i F. destruct ((0 <=? i) && (i <? n)) eqn:E.
    - rewrite (sum_single _ i); [rewrite Z.eqb_refl; reflexivity|apply NoDup_zrange|apply in_zrange; lia|].
      intros b _ Ne. replace (i =? b) with false by lia. reflexivity.
    - apply sum_zero_ext. intros q Hq. apply in_zrange in Hq. replace (i =? q) with false by lia. reflexivity.
  Qed.

  Lemma sum_indices_nil : forall (f : list Z -> T), sum_over sc (indices []) f = f [].
  Proof. intros. cbn [indices]. rewrite sum_cons, sum_nil. ring. Qed.

  Lemma sum_indices_cons : forall d ds (f : list Z -> T),
    sum_over sc (indices (d :: ds)) f
    = sum_over sc (zrange d) (fun i => sum_over sc (indices ds) (fun ix => f (i :: ix))).
  Proof.
    intros. cbn [indices]. rewrite sum_flat_map. apply sum_over_ext. intros i _. apply sum_over_map.
  Qed.

  Lemma sum_indices_app : forall a b (f : list Z -> T),
    sum_over sc (indices (a ++ b)) f
    = sum_over sc (indices a) (fun i => sum_over sc (indices b) (fun j => f (i ++ j))).
  Proof.
    induction a as [|d a IH]; intros b f.
    - rewrite sum_indices_nil. reflexivity.
    - cbn [app]. rewrite !sum_indices_cons. apply sum_over_ext. intros i _. rewrite IH. reflexivity.
  Qed.

  (** ** Inner products *)

  Lemma inner_ext : forall ds X X' Y Y',
    (forall ix, valid ds ix -> X ix = X' ix) -> (forall ix, valid ds ix -> Y ix = Y' ix) ->
    inner sc ds X Y = inner sc ds X' Y'.
  Proof.
    intros ds X X' Y Y' H1 H2. apply sum_over_ext. intros ix H. apply in_indices in H.
    rewrite H1, H2 by auto. reflexivity.
  Qed.

  Lemma inner_comm : forall ds X Y, inner sc ds X Y = inner sc ds Y X.
  Proof. intros. apply sum_over_ext. intros. ring. Qed.
  Lemma mul_zero_l : forall a, smul sc zero a = zero.
  Proof. intros; ring. Qed.
  Lemma mul_zero_r : forall a, smul sc a zero = zero.
  Proof. intros; ring. Qed.
  Lemma mul_comm : forall a b, smul sc a b = smul sc b a.
  Proof. intros; ring. Qed.
End Sums.
