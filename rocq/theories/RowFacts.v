(** Tensors of shape [ds ++ [n]] seen as matrices of rows of length [n]. *)
From Coq Require Import ZArith List Bool Lia.
From Verif Require Import Base BaseFacts TensorFacts ActivationFacts.
Import ListNotations.
Open Scope Z_scope.

Lemma valid_snoc : forall ds n ix, valid (ds ++ [n]) ix ->
  exists i j, ix = i ++ [j] /\ valid ds i /\ 0 <= j < n.
Proof.
  induction ds as [|d ds IH]; intros n ix H; cbn in H.
  - destruct ix as [|j [|]]; try (destruct H as [? []]); try contradiction. exists [], j. cbn. auto.
  - destruct ix as [|a ix]; [contradiction|]. destruct H as [Ha H].
    destruct (IH _ _ H) as (i & j & -> & Hi & Hj). exists (a :: i), j. cbn. auto.
Qed.

Lemma firstn_snoc : forall {A} (l : list A) a, firstn (length l) (l ++ [a]) = l.
Proof. intros. rewrite firstn_app, Nat.sub_diag, firstn_all. cbn. apply app_nil_r. Qed.

Lemma skipn_snoc : forall {A} (l : list A) a, skipn (length l) (l ++ [a]) = [a].
Proof. intros. rewrite skipn_app, Nat.sub_diag, skipn_all. reflexivity. Qed.

Lemma dims_as_rows : forall t ds n, tdims t = ds ++ [n] ->
  tdims (as_matrix (length ds) t) = [prod ds; n].
Proof.
  intros t ds n E. rewrite tdims_as_matrix, E, firstn_snoc, skipn_snoc. cbn. do 2 f_equal. lia.
Qed.

Lemma holds_as_rows : forall {V T} (dt : dtype V T) s t ds n (X : list Z -> T),
  tdims t = ds ++ [n] -> dims_ok t -> holds dt s t X ->
  holds dt s (as_matrix (length ds) t) (arg2 (fun a b => X (expand ds a ++ [b]))).
Proof.
  intros V T dt s t ds n X E D H. pose proof (holds_as_matrix dt s (length ds) t X D H) as Q.
  eapply holds_ext; [|exact Q]. intros ix Hix. rewrite (dims_as_rows _ _ _ E) in Hix. apply valid_2 in Hix.
  destruct Hix as (i & j & -> & Hi & Hj). unfold arg2; cbn [nth].
  rewrite E, firstn_snoc, skipn_snoc, (expand_1 n j Hj). reflexivity.
Qed.

(** The value of row operators: [F a] on row number [a] is [G] of the row
    index. *)
Lemma writes_as_rows : forall {V T} (dt : dtype V T) m s z ds n (F : Z -> Z -> T) (G : list Z -> Z -> T),
  tdims z = ds ++ [n] -> dims_ok z ->
  (forall i j, valid ds i -> 0 <= j < n -> F (offset ds i) j = G i j) ->
  writes dt m s (as_matrix (length ds) z) (arg2 F) ->
  writes dt m s z (fun ix => G (removelast ix) (last ix 0)).
Proof.
  intros V T dt m s z ds n F G E D HF W.
  pose proof (writes_as_matrix dt m s (length ds) z F D W) as Q.
  eapply writes_ext; [reflexivity| |exact Q]. intros ix Hix. rewrite E in *.
  destruct (valid_snoc _ _ _ Hix) as (i & j & -> & Hi & Hj).
  pose proof (valid_length _ _ Hi) as L.
  rewrite firstn_snoc, skipn_snoc. rewrite <- L, firstn_snoc, skipn_snoc.
  rewrite removelast_last, last_last. cbn. replace (j * 1 + 0) with j by lia. apply HF; auto.
Qed.

Lemma mapped_as_rows : forall {V} (s : st V) p t, mapped s t -> mapped s (as_matrix p t).
Proof. intros. apply mapped_as_matrix; auto. Qed.

Lemma nonneg_snoc : forall t ds n, tdims t = ds ++ [n] -> dims_ok t -> nonneg ds /\ 0 <= n /\ 0 <= prod ds.
Proof.
  intros t ds n E D. unfold dims_ok in D. rewrite E in D. apply nonneg_app in D. destruct D as [D1 D2].
  repeat split; auto; [inversion D2; auto|apply prod_nonneg; auto].
Qed.
