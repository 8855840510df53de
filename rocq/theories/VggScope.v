(** Proofs about layers in local variables and the main functions of the VGG16
    examples. *)
From Coq Require Import ZArith List Bool Lia String Reals Lra.
From Verif Require Import Base BaseFacts TensorFacts Traits Scalar LinAlg RealScalar Activation ActivationSpec Conv Pool Utility
  Layers LayersSpec LayersFacts LayerCalls Vgg VggSpec VggFacts PropsVgg Examples.
Import ListNotations.
Open Scope Z_scope.
Open Scope model_scope.

(** ** Scopes *)
Section Scope.
  Context {V T : Type} (dt : dtype V T).

  (** Layers that one after the other turn content [c] into content [c']. *)
  Inductive steps : list (tensor -> M V layer) -> content T -> content T -> Prop :=
  | steps_nil : forall c, steps [] c c
  | steps_cons : forall f ls c c1 c', Forall (fun d => 0 <= d) (fst c1) ->
      (forall s x, input dt s x c -> exists Ws, creates dt (f x) s c1 Ws) -> steps ls c1 c' -> steps (f :: ls) c c'.

  Lemma steps_app : forall ls ms c c1 c', steps ls c c1 -> steps ms c1 c' -> steps (ls ++ ms) c c'.
  Proof using. intros ls ms c c1 c' H. induction H; intros K; cbn [app]; [exact K|]. econstructor; eauto. Qed.

  Lemma steps_one : forall f c c' Ws, Forall (fun d => 0 <= d) (fst c') ->
    (forall s x, input dt s x c -> creates dt (f x) s c' Ws) -> steps [f] c c'.
  Proof using. intros f c c' Ws N H. econstructor; [exact N|intros s x I; exists Ws; apply H, I|constructor]. Qed.

  (** [k] makes the tensors [us a] and [R] is a fact about them: the same after
      leaving the scope. *)
  Lemma in_scope_ok : forall A (us : A -> list tensor) (R : A -> st V -> Prop) (k : tensor -> M V A) ls c c',
    (forall a s s', (forall q, In (fst q) (map tblk (us a)) -> cells s' q = cells s q) -> R a s -> R a s') ->
    steps ls c c' ->
    (forall s y, input dt s y c' -> exists a s', k y s = Ok a s' /\ grown s s' (us a) /\ R a s') ->
    forall s x, input dt s x c -> exists a s', in_scope ls x k s = Ok a s' /\ grown s s' (us a) /\ R a s'.
  Proof using.
    intros A us R k ls c c' St H. induction H as [c|f ls c c1 c' N Hf H IH]; intros K s x I; cbn [in_scope]; [apply K, I|].
    destruct (Hf s x I) as (Ws & l & s1 & E & G & Ho & _).
    destruct (IH K s1 (output l)) as (a & s2 & E2 & G2 & R2); [split; [apply G|]; auto|].
    exists a, (destroy l s2). unfold with_layer. rewrite E, E2. split; [reflexivity|].
    split; [eapply grown_release; [apply I|exact G|exact G2]|].
    apply (St a s2); [|exact R2]. intros q Hq. unfold destroy. apply release_out. intros Hq2.
    apply in_map_iff in Hq. apply in_map_iff in Hq2. destruct Hq as (u & Eu & Iu). destruct Hq2 as (v & Ev & Iv).
    destruct G as (_ & _ & _ & A1 & _). destruct G2 as (_ & _ & _ & A2 & _). rewrite Forall_forall in A1, A2.
    specialize (A1 v Iv). specialize (A2 u Iu). lia.
  Qed.

  Lemma in_scope_throws : forall A (k : tensor -> M V A) ls f ms c c' e,
    steps ls c c' -> (forall s x, input dt s x c' -> leaks (f x) s e []) ->
    forall s x, input dt s x c -> exists s', in_scope (ls ++ f :: ms) x k s = Throw e s' /\ forall q, cells s' q = cells s q.
  Proof using.
    intros A k ls f ms c c' e H. induction H as [c|g ls c c1 c' N Hg H IH]; intros K s x I; cbn [app in_scope].
    - destruct (K s x I) as (ts & s' & E & G & Et). destruct ts; [|discriminate]. exists s'. unfold with_layer. rewrite E.
      split; [reflexivity|]. intros q. apply G. cbn. tauto.
    - destruct (Hg s x I) as (Ws & l & s1 & E & G & Ho & _).
      destruct (IH K s1 (output l)) as (s2 & E2 & C2); [split; [apply G|]; auto|].
      exists (destroy l s2). unfold with_layer. rewrite E, E2. split; [reflexivity|].
      intros q. unfold destroy. rewrite release_cells, C2, <- release_cells. apply (grown_release_all s s1); [apply I|exact G].
  Qed.
End Scope.

(** ** The layers of VGG *)
Section Vgg.
  Context {V : Type} (dt : dtype V R) (di : dtype V Z) (eps lowest : R) (e : engine)
    (p : string -> tensor -> M V unit) (W B : string -> list Z -> R).

  Lemma convs_steps : forall n h w b c X, 1 <= n -> 1 <= h -> h + 3 < 2 ^ 32 -> 1 <= w -> w + 3 < 2 ^ 32 -> 1 <= c ->
    convs_ok dt p W B h w c b ->
    steps dt (map (vgg_unit dt di Rsc e p) b) ([n; h; w; c], X) ([n; h; w; chan c b], snd (convs W B h w c b X)).
  Proof using.
    intros n h w b. induction b as [|[d nm] b IH]; intros c X Hn Hh Fh Hw Fw Hc HB; [constructor|].
    destruct HB as (Hs & (Hd & HW & Hb) & HB). cbn [map chan fold_left fst convs].
    econstructor; [| |apply (IH d (conv3 h w c (W nm) (B nm) X)); auto; lia]; [apply nonneg4; lia|].
    intros s x I. eexists. apply (vgg_conv_creates dt di e d _ _ n h w c (W nm) (B nm) s x X); auto.
  Qed.

  Context (Lo : (lowest <= 0)%R).

  Lemma blocks_steps : forall n bs h w c X,
    1 <= n -> 1 <= h -> h + 3 < 2 ^ 32 -> 1 <= w -> w + 3 < 2 ^ 32 -> 1 <= c -> blocks_ok dt p W B h w c bs ->
    let ls := flat_map (vgg_block dt di Rsc lowest e p) bs in
    ((2 ^ Z.of_nat (List.length bs) | h) -> (2 ^ Z.of_nat (List.length bs) | w) ->
     exists h' w' c' Y, blocks W B h w c bs X = (h', w', c', Y) /\ 1 <= h' /\ 1 <= w' /\ 1 <= c' /\
       steps dt ls ([n; h; w; c], X) ([n; h'; w'; c'], Y)) /\
    (~ ((2 ^ Z.of_nat (List.length bs) | h) /\ (2 ^ Z.of_nat (List.length bs) | w)) ->
     exists l1 f l2 c', ls = l1 ++ f :: l2 /\ steps dt l1 ([n; h; w; c], X) c' /\
       forall s x, input dt s x c' -> leaks (f x) s RuntimeError []).
  Proof using Lo.
    intros n bs. induction bs as [|b bs IH]; intros h w c X Hn Hh Fh Hw Fw Hc HB ls; subst ls.
    { split; [intros _ _; exists h, w, c, X; split; [auto|]; repeat (split; [lia|]); constructor|].
      intros Q. exfalso. apply Q. cbn. split; apply Z.divide_1_l. }
    destruct HB as (Nb & Hcv & HB).
    pose proof (convs_steps n h w b c X Hn Hh Fh Hw Fw Hc Hcv) as S1.
    pose proof (chan_pos dt p W B h w b c Hc Hcv) as Hd. pose proof (convs_chan W B h w b c X) as Ech.
    cbn [flat_map]. unfold vgg_block at 1 3. rewrite <- app_assoc. cbn [app].
    replace (Z.of_nat (List.length (b :: bs))) with (Z.of_nat (List.length bs) + 1) by (cbn [List.length]; lia).
    rewrite Z.pow_add_r, Z.pow_1_r by lia.
    assert (K : forall a, 1 <= a -> a mod 2 = 0 -> 1 <= a / 2 /\ a = 2 * (a / 2)).
    { intros a Ha E. pose proof (Z.div_mod a 2 ltac:(lia)). lia. }
    assert (D : forall q a, a mod 2 = 0 -> (q * 2 | a) <-> (q | a / 2)).
    { intros q a E. pose proof (Z.div_mod a 2 ltac:(lia)) as Q. split; intros [z Hz]; exists z; nia. }
    assert (D2 : forall q a, (q * 2 | a) -> a mod 2 = 0).
    { intros q a [z ->]. rewrite Z.mul_assoc. apply Z.mod_mul. lia. }
    destruct (Z.eq_dec (h mod 2) 0) as [E1|E1]; [destruct (Z.eq_dec (w mod 2) 0) as [E2|E2]|].
    - pose proof (K h Hh E1) as [Kh1 Kh2]. pose proof (K w Hw E2) as [Kw1 Kw2].
      assert (S2 : steps dt [vgg_pool dt Rsc lowest] ([n; h; w; chan c b], snd (convs W B h w c b X))
                     ([n; h / 2; w / 2; chan c b], pool2 (snd (convs W B h w c b X)))).
      { eapply steps_one; [apply nonneg4; lia|]. intros s x I. apply vgg_pool_creates; auto.
        intros ix _. pose proof (convs_pos W B h w b c X Nb ix). lra. }
      destruct (IH (h / 2) (w / 2) (chan c b) (pool2 (snd (convs W B h w c b X))) Hn Kh1 ltac:(lia) Kw1 ltac:(lia) Hd HB) as [Q1 Q2]. split.
      + intros Dh Dw. destruct Q1 as (h' & w' & c' & Y & EB & Hh' & Hw' & Hc' & S3); [apply D; auto|apply D; auto|].
        exists h', w', c', Y. split; [|split; [auto|split; [auto|split; [auto|]]]].
        * cbn [blocks]. destruct (convs W B h w c b X) as [d Y1] eqn:EC. cbn [fst snd] in *. rewrite Ech. exact EB.
        * eapply steps_app; [exact S1|]. apply (steps_app dt [_] _ _ _ _ S2 S3).
      + intros Nd. destruct Q2 as (l1 & f & l2 & c' & EL & S3 & HL); [intros [Dh Dw]; apply Nd; split; apply D; auto|].
        exists (map (vgg_unit dt di Rsc e p) b ++ vgg_pool dt Rsc lowest :: l1), f, l2, c'.
        split; [rewrite EL, <- app_assoc; reflexivity|]. split; [|exact HL].
        eapply steps_app; [exact S1|]. apply (steps_app dt [_] _ _ _ _ S2 S3).
    - split; [intros _ Dw; apply D2 in Dw; contradiction|]. intros _.
      eexists _, _, _, _. split; [reflexivity|]. split; [exact S1|]. intros s x I.
      eapply vgg_pool_rejects; [| | | | | | |exact I]; auto; lia.
    - split; [intros Dh; apply D2 in Dh; contradiction|]. intros _.
      eexists _, _, _, _. split; [reflexivity|]. split; [exact S1|]. intros s x I.
      eapply vgg_pool_rejects; [| | | | | | |exact I]; auto; lia.
  Qed.

  Lemma dense_steps : forall n hs l X k, 1 <= n -> 1 <= l -> hidden_ok dt p W B l hs ->
    let (d, Y) := hidden W B l hs X in
    param_ok dt p W B (snd k) [d; fst k] (fst k) ->
    steps dt (map (vgg_hidden dt Rsc e p) hs ++
              [with_init (vgg_dense dt Rsc e (fst k)) (p (snd k ++ "_W")%string) (p (snd k ++ "_b")%string);
               vgg_softmax dt Rsc exp eps]) ([n; l], X)
      ([n; fst k], arg2 (fun i => softmax_fn eps (fst k) (fun j => affine d (W (snd k)) (B (snd k)) Y [i; j]))).
  Proof using.
    intros n hs. induction hs as [|[d nm] hs IH]; intros l X k Hn Hl HB.
    - cbn [hidden map app]. intros (Hk & HW & Hb). apply (steps_cons dt _ _ _ ([n; fst k], affine l (W (snd k)) (B (snd k)) X)); [apply nonneg2; lia| |].
      + intros s x I. eexists. apply (vgg_dense_creates dt e (fst k) _ _ n l (W (snd k)) (B (snd k)) s x X); auto.
      + eapply steps_one; [apply (nonneg2 n (fst k)); lia|]. intros s x I. apply vgg_softmax_creates. exact I.
    - destruct HB as ((Hd & HW & Hb) & HB). cbn [map hidden app].
      specialize (IH d (rectified (affine l (W nm) (B nm) X)) k Hn ltac:(lia) HB).
      destruct (hidden W B d hs (rectified (affine l (W nm) (B nm) X))) as [d' Y]. intros HK.
      econstructor; [| |apply IH; exact HK]; [apply nonneg2; lia|].
      intros s x I. eexists. apply vgg_dense_relu_creates; auto.
  Qed.
End Vgg.
