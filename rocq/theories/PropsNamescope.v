(** Properties C59, C60: name scopes. *)
From Coq Require Import List Bool Ascii String Lia.
From Verif Require Import Namescope NamescopeSpec.
Import ListNotations.
Open Scope list_scope.

Definition s_ (x : string) : str := list_ascii_of_string x.

Definition glue (sep ss s : str) : str := (if negb (empty ss) then ss ++ sep else ss) ++ s.

Lemma glue_nonempty : forall sep ss s, ss <> [] -> glue sep ss s = ss ++ sep ++ s.
Proof. intros sep [|a ss] s H; [congruence|]. unfold glue. cbn [empty negb]. rewrite app_assoc. reflexivity. Qed.

Lemma fold_glue : forall sep l ss, ss <> [] -> fold_left (glue sep) l ss = join sep (ss :: l).
Proof.
  intros sep l. induction l as [|s l IH]; intros ss H; [reflexivity|]. cbn [fold_left].
  rewrite glue_nonempty by auto. rewrite IH by (destruct ss; [congruence|discriminate]).
  cbn [join]. destruct l; [reflexivity|rewrite <- !app_assoc; reflexivity].
Qed.

Lemma star_path : forall c, star c = path_name (sep c) (names c).
Proof.
  intros [sp ns]. unfold star, path_name. cbn [sep names]. change (fold_left (glue sp) ns [] = join sp (visible ns)).
  induction ns as [|n ns IH]; [reflexivity|]. destruct n as [|a n]; [exact IH|].
  cbn [fold_left visible]. apply fold_glue. discriminate.
Qed.

Lemma qualify_path : forall c name, qualify c name = path_name (sep c) (names c ++ [name]).
Proof.
  intros [sp ns] name. unfold qualify. cbn [sep names]. pose proof (star_path (mkctx sp (ns ++ [name]))) as E. cbn [sep names] in E. rewrite <- E.
  unfold star. cbn [sep names]. rewrite fold_left_app. reflexivity.
Qed.

(** *** C59: every program observes the lexical paths and leaves the context as
    it found it, however it ends. *)
Theorem C59_lexical : forall p c,
  exec p c = (observes (sep c) (names c) p, c) /\ snd (observes (sep c) (names c) p) <> Undefined.
Proof.
  intros p. induction p as [| |name|prefix body IH|p IHp q IHq| |p IHp q IHq]; intros c; cbn [exec observes].
  - split; [reflexivity|discriminate].
  - rewrite star_path. split; [reflexivity|discriminate].
  - rewrite qualify_path. split; [reflexivity|discriminate].
  - destruct (IH (scope_in prefix c)) as [E H]. rewrite E. cbn [scope_in sep names] in *.
    destruct (observes (sep c) (names c ++ [prefix]) body) as [o h]. cbn [snd] in H.
    assert (O : scope_out prefix (scope_in prefix c) = Some c).
    { unfold scope_out, scope_in. cbn [names sep]. rewrite removelast_last. destruct c as [sp [|n ns]]; reflexivity. }
    rewrite O. destruct h; [split; auto|split; auto|congruence].
  - destruct (IHp c) as [E H]. rewrite E. destruct (observes (sep c) (names c) p) as [o h]. cbn [snd] in H.
    destruct h; [|split; auto|congruence]. destruct (IHq c) as [E' H']. rewrite E'.
    destruct (observes (sep c) (names c) q) as [o' h']. split; auto.
  - split; [reflexivity|discriminate].
  - destruct (IHp c) as [E H]. rewrite E. destruct (observes (sep c) (names c) p) as [o h]. cbn [snd] in H.
    destruct h; [split; auto| |congruence]. destruct (IHq c) as [E' H']. rewrite E'.
    destruct (observes (sep c) (names c) q) as [o' h']. split; auto.
Qed.

(** For paths without a leading empty component the name is the plain join. *)
Theorem C59_join : forall c, hd [("x"%char)] (names c) <> [] ->
  star c = join (sep c) (names c) /\ forall name, names c <> [] -> qualify c name = join (sep c) (names c ++ [name]).
Proof.
  intros c H. rewrite star_path. unfold path_name. split.
  - destruct (names c) as [|[|a n] ns]; [reflexivity|cbn in H; congruence|reflexivity].
  - intros name N. rewrite qualify_path. unfold path_name. destruct (names c) as [|[|a n] ns]; [congruence|cbn in H; congruence|reflexivity].
Qed.

Example C59_example :
  let p := With (s_ "a") (Seq (AskName (s_ "w"))
             (Seq (Try (With (s_ "b") (Seq AskPath (Seq Raise AskPath))) (AskName (s_ "h"))) AskPath)) in
  exec (Seq p (AskName (s_ "z"))) (mkctx (s_ "/") []) =
  ([s_ "a/w"; s_ "a/b"; s_ "a/h"; s_ "a"; s_ "z"], Returned, mkctx (s_ "/") []).
Proof. reflexivity. Qed.

(** *** C60: which paths share a name. *)

(** Decoding at the first separator. *)
Lemma split_first : forall (a : ascii) u v r t,
  ~ In a u -> ~ In a v -> u ++ a :: r = v ++ a :: t -> u = v /\ r = t.
Proof.
  intros a u. induction u as [|x u IH]; intros [|y v] r t Hu Hv E; cbn [app] in E.
  - injection E as E. auto.
  - injection E as E1 E2. exfalso. apply Hv. left. auto.
  - injection E as E1 E2. exfalso. apply Hu. left. auto.
  - injection E as E1 E2. destruct (IH v r t) as [A B]; [intros I; apply Hu; right; auto|intros I; apply Hv; right; auto|auto|].
    subst. auto.
Qed.

Lemma join_inj : forall a sp p q, Forall (fun s => ~ In a s) p -> Forall (fun s => ~ In a s) q ->
  p <> [] -> q <> [] -> join (a :: sp) p = join (a :: sp) q -> p = q.
Proof.
  intros a sp p. induction p as [|s p IH]; intros [|t q] Fp Fq Np Nq E; try congruence.
  inversion Fp as [|? ? Hs Fp']; inversion Fq as [|? ? Ht Fq']; subst.
  destruct p as [|s' p], q as [|t' q].
  - cbn [join] in E. congruence.
  - exfalso. apply Hs. cbn [join] in E. rewrite E. apply in_or_app. right. left. reflexivity.
  - exfalso. apply Ht. cbn [join] in E. rewrite <- E. apply in_or_app. right. left. reflexivity.
  - change (s ++ a :: (sp ++ join (a :: sp) (s' :: p)) = t ++ a :: (sp ++ join (a :: sp) (t' :: q))) in E.
    apply split_first in E; auto. destruct E as [-> E]. apply app_inv_head in E. f_equal. apply IH; auto; discriminate.
Qed.

Lemma visible_forall : forall P l, Forall P l -> Forall P (visible l).
Proof. intros P l H. induction H as [|s l Hs Hl IH]; [constructor|]. destruct s; [exact IH|constructor; auto]. Qed.

Lemma visible_join : forall sp l, join sp (visible l) = [] -> visible l = [].
Proof.
  intros sp l. induction l as [|s l IH]; [reflexivity|]. destruct s as [|a s]; [exact IH|]. cbn [visible join].
  destruct l; discriminate.
Qed.

(** Paths whose components avoid the first character of the separator share a
    name exactly when they agree up to leading empty components. *)
Theorem C60_distinct : forall a sp p q,
  Forall (fun s => ~ In a s) p -> Forall (fun s => ~ In a s) q ->
  (star (mkctx (a :: sp) p) = star (mkctx (a :: sp) q) <-> visible p = visible q).
Proof.
  intros a sp p q Fp Fq. rewrite !star_path. unfold path_name. cbn [sep names]. split; [|congruence].
  intros E. destruct (visible p) as [|s p'] eqn:Ep.
  - cbn [join] in E. symmetry. apply visible_join with (a :: sp). auto.
  - destruct (visible q) as [|t q'] eqn:Eq.
    + exfalso. rewrite <- Ep in E. apply visible_join in E. congruence.
    + rewrite <- Ep, <- Eq in *. apply join_inj in E; auto using visible_forall; congruence.
Qed.

(** So non-empty components give distinct names. *)
Theorem C60_injective : forall a sp p q,
  Forall (fun s => s <> [] /\ ~ In a s) p -> Forall (fun s => s <> [] /\ ~ In a s) q ->
  star (mkctx (a :: sp) p) = star (mkctx (a :: sp) q) -> p = q.
Proof.
  intros a sp p q Fp Fq E.
  assert (V : forall l, Forall (fun s => s <> [] /\ ~ In a s) l -> visible l = l).
  { intros l H. destruct H as [|[|b s] l [Hs _] _]; [reflexivity|congruence|reflexivity]. }
  rewrite <- (V p), <- (V q) by auto. apply (C60_distinct a sp); auto;
    (eapply Forall_impl; [|eassumption]; cbn; tauto).
Qed.

(** In general names collide: a separator inside a component, a leading empty
    component, an empty separator, a separator that overlaps itself. *)
Theorem C60_refuted :
  star (mkctx (s_ "/") [s_ "a/b"]) = star (mkctx (s_ "/") [s_ "a"; s_ "b"]) /\
  star (mkctx (s_ "/") [s_ ""; s_ "a"]) = star (mkctx (s_ "/") [s_ "a"]) /\
  star (mkctx (s_ "") [s_ "ab"; s_ "c"]) = star (mkctx (s_ "") [s_ "a"; s_ "bc"]) /\
  star (mkctx (s_ "--") [s_ "a-"; s_ "b"]) = star (mkctx (s_ "--") [s_ "a"; s_ "-b"]).
Proof. repeat split. Qed.

Example C60_example :
  star (mkctx (s_ "::") [s_ "ab"; s_ ""; s_ "c"]) = s_ "ab::::c" /\
  star (mkctx (s_ "::") [s_ "ab"; s_ "c"; s_ ""]) = s_ "ab::c::".
Proof. repeat split. Qed.

Print Assumptions C59_lexical.
Print Assumptions C59_join.
Print Assumptions C60_distinct.
Print Assumptions C60_injective.
Print Assumptions C60_refuted.
