(** Property C105: backpropagation through a network of any depth.

    Floating point is replaced by exact real arithmetic; std::exp, std::log are
    the real exponential and logarithm. *)
From Coq Require Import ZArith List Bool Lia Reals Lra.
From Coquelicot Require Import Coquelicot.
From Verif Require Import Base BaseFacts Traits Scalar RealScalar SumFacts TensorFacts LinAlg LinAlgFacts Shapes Conv ConvSpec ConvFacts
  GradSpec Elem ElemSpec Activation ActivationSpec SoftmaxFacts PropsSoftmax PropsNorm Pool Demo Backprop BackpropSpec
  BackpropFacts BackpropRun ConvGradFacts.
Import ListNotations.
Open Scope Z_scope.
Open Scope model_scope.

Lemma net_cells_nodes : forall d0 net n k c ds, net_ok d0 net -> 0 <= n -> 0 <= k ->
  step_nodes d0 net n k c = Some ds -> nonneg ds.
Proof.
  intros d0 net n k c ds H Hn Hk Q.
  destruct c; cbn [step_nodes] in Q; try (eapply net_nodes_nonneg; eassumption);
    injection Q as <-; repeat constructor; auto.
Qed.

Section Backprop.
  Context {V : Type} (dt : dtype V R) (di : dtype V Z) (eps : R).

  (** The forward pass leaves the value of the network in the last tensor; the
      backward pass, started with any GZ at the output, leaves in the gradient
      tensors the gradient of <GZ, network> with respect to all the parameters
      and the input at once.  Nothing else is written. *)
  Theorem C105_backprop : forall net d0 E P X GZ s,
    net_ok d0 net -> nodes_ok (net_nodes 0 d0 net) E -> nodes_mapped (net_nodes 0 d0 net) E s ->
    holds dt s (E (Out 0)) X -> pars_held dt E s 0 net P -> holds dt s (E (GOut (length net))) GZ ->
    exists s' GP GX,
      (forward_from dt di Rsc exp eps E 0 net ;;; backward_from dt Rsc E 0 net) s = Ok tt s' /\
      holds dt s' (E (Out (length net))) (net_fn eps 0 net P X) /\
      grads_held dt E s' 0 net GP /\ holds dt s' (E (GOut 0)) GX /\
      only_nodes (fun c => exists i, (c = Out i /\ (0 < i <= length net)%nat) \/
                                     ((c = GOut i \/ c = GPar i) /\ (i < length net)%nat)) E s s' /\
      (net_smooth eps 0 net P X ->
       net_gradient d0 net (fun P X => inner Rsc (net_out d0 net) GZ (net_fn eps 0 net P X)) P X GP GX).
  Proof using.
    intros net d0 E P X GZ s H OK HM HX HP HZ.
    set (sh := net_nodes 0 d0 net) in *.
    assert (NN : forall c ds, sh c = Some ds -> nonneg ds) by (intros; eapply net_nodes_nonneg; eauto).
    assert (W : within sh 0 d0 net) by (intros c ds Q; exact Q).
    destruct (within_last sh net 0 d0 W) as [S1 S2]. cbn [Nat.add] in S1, S2.
    destruct (net_nodes_first net 0 d0) as [F1 F2].
    assert (I0 : inv dt sh E (learn (learn (fun _ => None) (GOut (length net)) GZ) (Out 0) X) s).
    { apply inv_learn; [apply inv_learn; [apply inv_nothing; auto| |]| |]; auto; unfold sh in *; congruence. }
    destruct (init_pars dt sh E net 0 d0 P s _ W I0 HP) as (A & I1 & K1 & U1).
    destruct (forward_from_ok dt di eps sh E OK NN net 0 d0 P X A s W H I1) as (s1 & A1 & E1 & I2 & K2 & O2 & U2); auto.
    { rewrite U1 by discriminate. apply learn_eq. }
    destruct (backward_from_ok dt eps sh E OK NN net 0 d0 P X GZ A1 s1 W H I2 K2)
      as (s2 & A2 & GP & GX & E3 & I3 & G3 & GP3 & O3 & U3 & V3).
    { rewrite U2, U1, learn_neq by discriminate. apply learn_eq. }
    exists s2, GP, GX. rewrite (bind_ok _ _ _ _ _ E1). split; [exact E3|].
    split. { apply I3. rewrite U3; [exact (outs_last eps net 0 P X A1 K2)|]. split; discriminate. }
    split; [eapply gpars_known_held; eauto|]. split; [apply I3; exact G3|]. split.
    - eapply only_nodes_trans; (eapply only_nodes_weaken; [|eassumption]).
      + intros c (i & Hi & ->). exists i. left. split; [reflexivity|lia].
      + intros c (i & Hi & Hc). exists i. right. split; [exact Hc|lia].
    - intros Hs DP DX.
      destruct (V3 Hs (fun j => along (P j) (DP j)) (along X DX) DP DX (along_moves _ _ _)) as (dZ & MZ & EZ).
      { intros j ds. apply along_moves. }
      rewrite <- EZ. exact (inner_moves _ GZ _ _ _ MZ).
  Qed.

  Section Train.
    Context (net : list layer) (d0 : list Z) (n k : Z) (E : node -> tensor).
    Context (Hnet : net_ok d0 net) (Hout : net_out d0 net = [n; k]) (Hn : 1 <= n) (Hk : 0 <= k).
    Context (HE : nodes_ok (step_nodes d0 net n k) E).

    (** The loss as a function of the parameters and the input. *)
    Definition net_loss (Y : tens) (P : nat -> tens) (X : tens) : R := mean_loss n k Y (net_fn eps 0 net P X).

    Lemma step_within : within (step_nodes d0 net n k) 0 d0 net.
    Proof using. intros c ds Q. pose proof (net_nodes_ge _ _ _ _ _ Q). destruct c; try contradiction; exact Q. Qed.

    Lemma step_nonneg : forall c ds, step_nodes d0 net n k c = Some ds -> nonneg ds.
    Proof using Hnet Hn Hk. intros c ds. apply net_cells_nodes; auto. lia. Qed.

    Lemma step_known : forall P X Y s, nodes_mapped (step_nodes d0 net n k) E s ->
      holds dt s (E (Out 0)) X -> pars_held dt E s 0 net P -> holds dt s (E Labels) Y ->
      holds dt s (E GLosses) (fun _ => / IZR n)%R ->
      exists A, inv dt (step_nodes d0 net n k) E A s /\ A (Out 0) = Some X /\ pars_known 0 net P A /\
        A Labels = Some Y /\ A GLosses = Some (fun _ => / IZR n)%R.
    Proof using.
      intros P X Y s HM HX HP HY HG.
      assert (I0 : inv dt (step_nodes d0 net n k) E (learn (learn (learn (fun _ => None) GLosses (fun _ => / IZR n)%R) Labels Y) (Out 0) X) s).
      { apply inv_learn; [apply inv_learn; [apply inv_learn; [apply inv_nothing; auto| |]| |]| |]; auto; try discriminate.
        cbn [step_nodes]. rewrite (proj1 (net_nodes_first net 0 d0)). discriminate. }
      destruct (init_pars dt _ E net 0 d0 P s _ step_within I0 HP) as (A & I1 & K1 & U1).
      exists A. split; [exact I1|]. split; [rewrite U1 by discriminate; apply learn_eq|]. split; [exact K1|].
      split.
      - rewrite U1, learn_neq by discriminate. apply learn_eq.
      - rewrite U1, !learn_neq by discriminate. apply learn_eq.
    Qed.

    (** One training step: the loss is the mean cross entropy, the parameters
        move against the gradient of the loss. *)
    Theorem C105_step : forall P X Y s, nodes_mapped (step_nodes d0 net n k) E s ->
      holds dt s (E (Out 0)) X -> pars_held dt E s 0 net P -> holds dt s (E Labels) Y ->
      holds dt s (E GLosses) (fun _ => / IZR n)%R ->
      (forall i j, 0 <= i < n -> 0 <= j < k -> (0 < net_fn eps 0 net P X [i; j])%R) ->
      exists s' GP GX, net_step dt di Rsc exp ln eps (div_float Rsc) E net s = Ok tt s' /\
        holds dt s' (E (Out (length net))) (net_fn eps 0 net P X) /\
        holds dt s' (E Loss) (fun _ => net_loss Y P X) /\
        pars_held dt E s' 0 net (fun i ix => P i ix - GP i ix)%R /\
        grads_held dt E s' 0 net GP /\ holds dt s' (E (GOut 0)) GX /\
        only_nodes (written net) E s s' /\ nodes_mapped (step_nodes d0 net n k) E s' /\
        (net_smooth eps 0 net P X -> net_gradient d0 net (net_loss Y) P X GP GX).
    Proof using Hnet Hout Hn Hk HE.
      intros P X Y s HM HX HP HY HG HZ.
      destruct (step_known P X Y s HM HX HP HY HG) as (A & I1 & A1 & A2 & A3 & A4).
      destruct (net_step_ok dt di eps _ E HE step_nonneg net d0 n k P X Y A s step_within Hnet Hout
        eq_refl eq_refl eq_refl eq_refl Hn Hk HZ I1 A1 A2 A3 A4)
        as (s' & A' & GP & GX & E' & I' & L' & P' & G' & X' & Z' & _ & _ & _ & O' & V').
      exists s', GP, GX. split; [exact E'|]. split; [apply I'; exact Z'|]. split; [apply I'; exact L'|].
      split; [exact (pars_known_held dt _ E net 0 _ A' s' I' P')|]. split; [eapply gpars_known_held; eauto|].
      split; [apply I'; exact X'|]. split; [exact O'|]. split; [|exact V'].
      split; apply I'.
    Qed.

    (** The tensors written by a step do not include the input, the labels and
        the incoming gradient. *)
    Theorem C105_inputs : ~ written net (Out 0) /\ ~ written net Labels /\ ~ written net GLosses.
    Proof using.
      repeat split; intros [(i & Hi & Q)|[(i & Q)|[(i & Q)|[(i & Q)|[Q|Q]]]]]; try discriminate.
      injection Q; lia.
    Qed.

    (** A network that ends in softmax has positive results, whatever the
        parameters. *)
    Theorem C105_positive : forall net', net = net' ++ [LSoftmax n k] ->
      forall P X i j, 0 <= i < n -> 0 <= j < k -> (0 < net_fn eps 0 net P X [i; j])%R.
    Proof using.
      intros net' En P X i j Hi Hj. rewrite En, net_fn_app. cbn. apply C33_range; auto.
    Qed.

    (** Training for [m] steps is gradient descent: [Q j] are the parameters
        after [j] steps. *)
    Theorem C105_train : forall net', net = net' ++ [LSoftmax n k] ->
      forall m P X Y s, nodes_mapped (step_nodes d0 net n k) E s ->
      holds dt s (E (Out 0)) X -> pars_held dt E s 0 net P -> holds dt s (E Labels) Y ->
      holds dt s (E GLosses) (fun _ => / IZR n)%R ->
      exists s' (Q : nat -> nat -> tens), net_train dt di Rsc exp ln eps (div_float Rsc) E m net s = Ok tt s' /\
        Q 0%nat = P /\ pars_held dt E s' 0 net (Q m) /\ holds dt s' (E (Out 0)) X /\
        ((0 < m)%nat -> holds dt s' (E Loss) (fun _ => net_loss Y (Q (Nat.pred m)) X)) /\
        only_nodes (written net) E s s' /\
        (forall j, (j < m)%nat -> exists GP GX, Q (S j) = (fun i ix => Q j i ix - GP i ix)%R /\
           (net_smooth eps 0 net (Q j) X -> net_gradient d0 net (net_loss Y) (Q j) X GP GX)).
    Proof using Hnet Hout Hn Hk HE.
      intros net' En m P X Y s HM HX HP HY HG.
      destruct (step_known P X Y s HM HX HP HY HG) as (A & I1 & A1 & A2 & A3 & A4).
      clear HM HX HP HY HG. revert P A s I1 A1 A2 A3 A4.
      assert (G : forall m P A s, inv dt (step_nodes d0 net n k) E A s -> A (Out 0) = Some X -> pars_known 0 net P A ->
        A Labels = Some Y -> A GLosses = Some (fun _ => / IZR n)%R ->
        exists s' A' (Q : nat -> nat -> tens), net_train dt di Rsc exp ln eps (div_float Rsc) E m net s = Ok tt s' /\
          inv dt (step_nodes d0 net n k) E A' s' /\ A' (Out 0) = Some X /\
          Q 0%nat = P /\ pars_known 0 net (Q m) A' /\
          (match m with O => A' = A | _ => A' Loss = Some (fun _ => net_loss Y (Q (Nat.pred m)) X) end) /\
          only_nodes (written net) E s s' /\
          (forall j, (j < m)%nat -> exists GP GX, Q (S j) = (fun i ix => Q j i ix - GP i ix)%R /\
             (net_smooth eps 0 net (Q j) X -> net_gradient d0 net (net_loss Y) (Q j) X GP GX))).
      { clear m. induction m as [|m IH]; intros P A s I1 A1 A2 A3 A4.
        - exists s, A, (fun _ => P). split; [reflexivity|]. split; [exact I1|]. split; [exact A1|]. split; [reflexivity|].
          split; [exact A2|]. split; [reflexivity|]. split; [apply only_nodes_refl|]. intros j Hj. lia.
        - destruct (net_step_ok dt di eps _ E HE step_nonneg net d0 n k P X Y A s step_within Hnet Hout
            eq_refl eq_refl eq_refl eq_refl Hn Hk (C105_positive net' En P X) I1 A1 A2 A3 A4)
            as (s1 & A' & GP & GX & E' & I' & L' & P' & G' & X' & Z' & B1 & B2 & B3 & O' & V').
          destruct (IH (fun i => tsub Rsc (P i) (GP i)) A' s1 I' B1 P' B2 B3)
            as (s2 & A'' & Q & E2 & I2 & C1 & Q0 & C2 & C3 & O2 & V2).
          exists s2, A'', (fun j => match j with O => P | S j => Q j end). cbn [net_train].
          rewrite (bind_ok _ _ _ _ _ E'). split; [exact E2|]. split; [exact I2|]. split; [exact C1|].
          split; [reflexivity|]. split; [exact C2|]. split.
          { destruct m as [|m]; [rewrite C3; exact L'|]. exact C3. }
          split; [eapply only_nodes_trans; eauto|].
          intros [|j] Hj.
          + exists GP, GX. split; [exact Q0|]. exact V'.
          + apply V2. lia. }
      intros P A s I1 A1 A2 A3 A4.
      destruct (G m P A s I1 A1 A2 A3 A4) as (s' & A' & Q & E' & I' & B1 & Q0 & B2 & B3 & O' & V').
      exists s', Q. split; [exact E'|]. split; [exact Q0|]. split; [eapply pars_known_held; eauto|].
      split; [apply I'; exact B1|]. split; [|split; [exact O'|exact V']].
      intros Hm. destruct m; [lia|]. apply I'. exact B3.
    Qed.
  End Train.
End Backprop.

(** There is at most one gradient. *)
Lemma inner_sub : forall ds (G G' D : tens),
  (inner Rsc ds G D - inner Rsc ds G' D = inner Rsc ds (fun ix => G ix - G' ix)%R D)%R.
Proof.
  intros ds G G' D. unfold inner. pose proof (sum_sub Rsc Rsc_laws (indices ds)) as Q. cbn in Q. rewrite <- Q.
  apply sum_over_ext. intros ix _. cbn. ring.
Qed.

Lemma sum_sq : forall A (l : list A) (f : A -> R), (0 <= sum_over Rsc l (fun a => f a * f a))%R /\
  (sum_over Rsc l (fun a => f a * f a)%R = 0%R -> forall a, In a l -> f a = 0%R).
Proof.
  intros A l f. induction l as [|b l [IH1 IH2]].
  - split; [apply Rle_refl|]. intros _ a [].
  - rewrite (sum_cons Rsc Rsc_laws). cbn [sadd Rsc]. pose proof (Rle_0_sqr (f b)) as S0. unfold Rsqr in S0. split; [lra|].
    intros Q a [<-|Ha]; [apply Rsqr_0_uniq; unfold Rsqr; lra|]. apply IH2; auto. lra.
Qed.

Lemma inner_sq : forall ds (D : tens), (0 <= inner Rsc ds D D)%R /\
  (inner Rsc ds D D = 0%R -> forall ix, valid ds ix -> D ix = 0%R).
Proof.
  intros ds D. destruct (sum_sq _ (indices ds) D) as [H1 H2]. split; [exact H1|].
  intros Q ix Hix. apply H2; auto. apply in_indices; auto.
Qed.

Lemma par_inner_sub : forall net k (G G' D : nat -> tens),
  (par_inner k net G D - par_inner k net G' D = par_inner k net (fun i ix => G i ix - G' i ix)%R D)%R.
Proof.
  induction net as [|L net IH]; intros k G G' D; cbn [par_inner]; [ring|].
  rewrite <- IH, <- inner_sub. ring.
Qed.

Lemma par_inner_sq : forall net k (D : nat -> tens), (0 <= par_inner k net D D)%R /\
  (par_inner k net D D = 0%R -> forall j L, nth_error net j = Some L -> forall ix, valid (par_shape L) ix ->
     D (k + j)%nat ix = 0%R).
Proof.
  induction net as [|L net IH]; intros k D; cbn [par_inner].
  - split; [lra|]. intros _ [|j] L Q; discriminate.
  - destruct (IH (S k) D) as [H1 H2]. destruct (inner_sq (par_shape L) (D k)) as [H3 H4]. split; [lra|].
    intros Q [|j] L' Hj ix Hix.
    + injection Hj as <-. rewrite Nat.add_0_r. apply H4; auto. lra.
    + rewrite Nat.add_succ_r. apply (H2 ltac:(lra) j L'); auto.
Qed.

Theorem C105_unique : forall d0 net phi P X GP GX GP' GX',
  net_gradient d0 net phi P X GP GX -> net_gradient d0 net phi P X GP' GX' ->
  (forall ix, valid d0 ix -> GX ix = GX' ix) /\
  (forall j L, nth_error net j = Some L -> forall ix, valid (par_shape L) ix -> GP j ix = GP' j ix).
Proof.
  intros d0 net phi P X GP GX GP' GX' H H'.
  set (DP := fun i ix => (GP i ix - GP' i ix)%R). set (DX := fun ix => (GX ix - GX' ix)%R).
  pose proof (is_derive_unique _ _ _ (H DP DX)) as Q. rewrite (is_derive_unique _ _ _ (H' DP DX)) in Q.
  pose proof (inner_sub d0 GX GX' DX) as Q1. pose proof (par_inner_sub net 0 GP GP' DP) as Q2.
  fold DX in Q1. fold DP in Q2.
  destruct (inner_sq d0 DX) as [S1 S2]. destruct (par_inner_sq net 0 DP) as [S3 S4]. split.
  - intros ix Hix. assert (Z0 : DX ix = 0%R) by (apply S2; auto; lra). unfold DX in Z0. lra.
  - intros j L Hj ix Hix. assert (Z0 : DP j ix = 0%R) by (apply (S4 ltac:(lra) j L); auto). unfold DP in Z0. lra.
Qed.

(** At a corner of relu there is no gradient for the backward pass to compute. *)
Theorem C105_corner_refuted : forall eps P, exists net d0 X GZ, net_ok d0 net /\
  ~ exists GP GX, net_gradient d0 net (fun P X => inner Rsc (net_out d0 net) GZ (net_fn eps 0 net P X)) P X GP GX.
Proof.
  intros eps P. exists [LRelu [1]], [1], (fun _ => 0%R), (fun _ => 1%R).
  split; [cbn; repeat split; repeat constructor; lia|].
  intros (GP & GX & H). apply (proj2 (C28_at_zero 0%R)).
  assert (Q : forall t, inner Rsc [1] (fun _ => 1%R)
      (net_fn eps 0 [LRelu [1]] (fun i => along (P i) (fun _ => 0%R) t) (along (fun _ => 0%R) (fun _ => 1%R) t)) = Rmax t 0).
  { intros t. unfold inner. change (indices [1]) with [[0]]. cbn. unfold along.
    replace (0 + t * 1)%R with t by ring. ring. }
  eexists. eapply is_derive_ext; [exact Q|exact (H (fun _ _ => 0%R) (fun _ => 1%R))].
Qed.

(** ** Concrete networks *)

(** A block for every tensor. *)
Definition block (c : node) : Z :=
  match c with
  | Labels => 0 | Losses => 1 | GLosses => 2 | Loss => 3
  | Out i => 4 * Z.of_nat i + 4 | GOut i => 4 * Z.of_nat i + 5
  | Par i => 4 * Z.of_nat i + 6 | GPar i => 4 * Z.of_nat i + 7
  end.
Definition node_of (b : Z) : node :=
  if b =? 0 then Labels else if b =? 1 then Losses else if b =? 2 then GLosses else if b =? 3 then Loss else
  let i := Z.to_nat (b / 4 - 1) in
  if b mod 4 =? 0 then Out i else if b mod 4 =? 1 then GOut i else if b mod 4 =? 2 then Par i else GPar i.

Lemma node_of_block : forall c, node_of (block c) = c.
Proof.
  intros c. unfold node_of.
  destruct c as [i|i|i|i| | | |]; try reflexivity; cbn [block];
    repeat match goal with |- context [?a =? ?b] =>
      destruct (Z.eqb_spec a b); try (exfalso; Z.div_mod_to_equations; lia) end;
    f_equal; Z.div_mod_to_equations; lia.
Qed.

Definition own (sh : node -> option (list Z)) (c : node) : tensor :=
  T_ (block c) (match sh c with Some ds => ds | None => [] end).

(** Every network has suitable tensors, with any values of the parameters, the
    input and the labels. *)
Theorem C105_environment : forall V (dt : dtype V R) d0 net n k P X Y, net_ok d0 net -> 1 <= n -> 0 <= k ->
  exists E s, nodes_ok (step_nodes d0 net n k) E /\ nodes_mapped (step_nodes d0 net n k) E s /\
    holds dt s (E (Out 0)) X /\ pars_held dt E s 0 net P /\ holds dt s (E Labels) Y /\
    holds dt s (E GLosses) (fun _ => / IZR n)%R.
Proof.
  intros V dt d0 net n k P X Y H Hn Hk. set (sh := step_nodes d0 net n k).
  set (val := fun c => match c with Out _ => X | Par i => P i | Labels => Y | _ => fun _ => (/ IZR n)%R end).
  set (B := 4 * Z.of_nat (length net) + 8).
  exists (own sh), (mkst (fun p => if fst p <? B then
      Init (emb dt (val (node_of (fst p)) (expand (tdims (own sh (node_of (fst p)))) (snd p)))) else Unmapped) B).
  assert (LB : forall c ds, sh c = Some ds -> block c < B).
  { intros c ds Q. unfold B.
    assert (G : forall net k d0 c ds, net_nodes k d0 net c = Some ds ->
      match c with Out i | GOut i => (i <= k + length net)%nat | Par i | GPar i => (i < k + length net)%nat | _ => False end).
    { clear. induction net as [|L net IH]; intros k d0 c ds; cbn [net_nodes length].
      - destruct c as [i|i|i|i| | | |]; try discriminate; destruct (Nat.eqb_spec i k); try discriminate; intros; lia.
      - destruct c as [i|i|i|i| | | |]; try discriminate; destruct (Nat.eqb_spec i k); try (intros; lia);
          intros Q; apply IH in Q; cbn in Q; lia. }
    destruct c; cbn [block]; try lia; apply (G net 0%nat d0) in Q; cbn in Q; lia. }
  assert (HH : forall c ds, sh c = Some ds -> holds dt (mkst (fun p => if fst p <? B then
      Init (emb dt (val (node_of (fst p)) (expand (tdims (own sh (node_of (fst p)))) (snd p)))) else Unmapped) B) (own sh c) (val c)).
  { intros c ds Q ix Hix. unfold addr, daddr. cbn [cells fst snd]. change (tblk (own sh c)) with (block c).
    replace (block c <? B) with true by (pose proof (LB c ds Q); lia). rewrite node_of_block.
    change (tbase (own sh c)) with 0. rewrite Z.add_0_l, expand_offset by auto. reflexivity. }
  assert (Par_live : forall net k d0 sh', (forall c ds, net_nodes k d0 net c = Some ds -> sh' c = Some ds) ->
    forall s, (forall c ds, sh' c = Some ds -> holds dt s (own sh c) (val c)) -> pars_held dt (own sh) s k net P).
  { intros net0. clear. induction net0 as [|L net0 IH]; intros k0 d1 sh' W s HH; cbn [pars_held]; [exact I|]. split.
    - apply (HH (Par k0) (par_shape L)). apply W. cbn. rewrite Nat.eqb_refl. reflexivity.
    - eapply (IH (S k0) (out_shape L) sh'); auto. intros c ds Q. apply W. apply net_nodes_tail. exact Q. }
  repeat split.
  - intros c ds Q. unfold own. rewrite Q. reflexivity.
  - intros c c' _ _ N p (o & _ & ->) (o' & _ & Q). apply N. injection Q as Q _. cbn in Q.
    rewrite <- (node_of_block c), <- (node_of_block c'), Q. reflexivity.
  - intros p Hp. cbn in Hp |- *. replace (fst p <? B) with false by lia. reflexivity.
  - intros c Sc. destruct (sh c) as [ds|] eqn:Q; [|congruence].
    eapply holds_mapped; [|exact (HH c ds Q)]. unfold dims_ok, own; cbn. rewrite Q.
    eapply net_cells_nodes; [exact H| | |exact Q]; lia.
  - apply (HH (Out 0) d0). unfold sh. cbn [step_nodes]. apply net_nodes_first.
  - apply (Par_live net 0%nat d0 sh); auto. intros c ds Q. apply (step_within net d0 n k c ds Q).
  - exact (HH Labels [n; k] eq_refl).
  - exact (HH GLosses [n] eq_refl).
Qed.

(** A convolutional network on one 3 x 3 image, over the integers. *)
Definition cnn : list layer :=
  [LConv Builtin (new_conv_ps (mkpadding 0 0) (mkpadding 0 0) 1 1) 1 3 3 1 2 2 1 2 2;
   LBiasImg 1 2 2 1; LRelu [1; 2; 2; 1]; LFlatten [1%nat; 3%nat] [1; 2; 2; 1]; LMatmul Cblas 1 4 2; LBias 1 2;
   LMul [1; 2]; LAdd [1; 2]].
Definition cnn_nodes := net_nodes 0 [1; 3; 3; 1] cnn.
Definition cnn_data (f : list Z) (b : Z) (c : node) : list Z :=
  match c with
  | Out 0 => [1; 2; 3; 4; 5; 6; 7; 8; 9]
  | Par 0 => f
  | Par 1 => [b]
  | Par 4 => [1; 2; 3; 4; 5; 6; 7; 8]
  | Par 5 => [10; 20]
  | Par 6 => [2; 3]
  | Par 7 => [5; 6]
  | GOut 8 => [1; 10]
  | _ => repeat 0 36
  end.
Definition cnn_state (f : list Z) (b : Z) : st Z := demo (map (fun i => cnn_data f b (node_of i)) (zrange 40)).
Definition cnn_run (f : list Z) (b : Z) (c : node) : option (list (cell Z)) :=
  run (forward_from zt zt Zsc (fun x => x) 0 (own cnn_nodes) 0 cnn ;;; backward_from zt Zsc (own cnn_nodes) 0 cnn)
      (cnn_state f b) (own cnn_nodes c).

(** The incoming gradient is (1, 10): the objective is 213 + 10 * 408.  Adding 1
    to an entry of the filters changes it by that entry of the gradient, for
    instance 337 + 10 * 630 - (213 + 10 * 408) = 2344. *)
Example C105_example :
  net_out [1; 3; 3; 1] cnn = [1; 2] /\
  map (cnn_run [1; -1; 0; 1] (-1)) [Out 2; Out 3; Out 8; GPar 0; GPar 1; GPar 4; GPar 5; GPar 6; GPar 7; GOut 0] =
  map (fun l => Some (inits l)) [[3; 4; 6; 7]; [3; 4; 6; 7]; [213; 408]; [2344; 2976; 4240; 4872]; [632];
    [6; 90; 8; 120; 12; 180; 14; 210]; [2; 30]; [104; 1340]; [1; 10]; [62; 64; -126; 190; 126; -128; 0; 190; 254]] /\
  map (fun f => cnn_run f (-1) (Out 8)) [[2; -1; 0; 1]; [1; 0; 0; 1]; [1; -1; 1; 1]; [1; -1; 0; 2]] =
  map (fun l => Some (inits l)) [[337; 630]; [369; 690]; [433; 810]; [465; 870]].
Proof. vm_compute. repeat split; reflexivity. Qed.

(** Two of the four inputs of relu are negative here. *)
Example C105_relu_example :
  map (cnn_run [1; -1; 0; 1] (-6)) [Out 2; Out 3; Out 8; GPar 0; GPar 1] =
  map (fun l => Some (inits l)) [[-2; -1; 1; 2]; [0; 0; 1; 2]; [63; 132]; [2030; 2474; 3362; 3806]; [444]] /\
  cnn_run [1; -1; 0; 1] (-7) (Out 8) = Some (inits [39; 90]).
Proof. vm_compute. repeat split; reflexivity. Qed.

(** A perceptron with one hidden layer: every hypothesis of [C105_train] can be
    met, and the first step follows the gradient. *)
Definition mlp : list layer :=
  [LMatmul Builtin 1 1 2; LBias 1 2; LRelu [1; 2]; LMatmul Builtin 1 2 2; LSoftmax 1 2].

Lemma mlp_smooth : net_smooth 0 0 mlp (fun _ _ => 1%R) (fun _ => 1%R).
Proof.
  cbn [mlp net_smooth smooth layer_fn]. repeat split; auto.
  - intros ix Hix. apply valid_2 in Hix. destruct Hix as (i & j & -> & _ & _). unfold arg2; cbn [nth].
    change (rsum 1 (fun _ => 1 * 1)%R) with (0 + 1 * 1)%R. lra.
  - intros i _ j Hj. apply Rdiv_lt_0_compat; [apply exp_pos|]. apply sum_exp_pos. lia.
Qed.

(** Cells that hold a number or an integer. *)
Definition cell_r : dtype (R + Z) R := mkdtype _ _ inl (fun v => match v with inl x => Some x | _ => None end) (fun _ => eq_refl).
Definition cell_z : dtype (R + Z) Z := mkdtype _ _ inr (fun v => match v with inr x => Some x | _ => None end) (fun _ => eq_refl).

Example C105_mlp_example : exists E s s' GP GX,
  nodes_ok (step_nodes [1; 1] mlp 1 2) E /\
  net_train cell_r cell_z Rsc exp ln 0%R (div_float Rsc) E 1 mlp s = Ok tt s' /\
  pars_held cell_r E s 0 mlp (fun _ _ => 1%R) /\
  pars_held cell_r E s' 0 mlp (fun i ix => 1 - GP i ix)%R /\
  net_gradient [1; 1] mlp (net_loss 0 mlp 1 2 (fun _ => 1%R)) (fun _ _ => 1%R) (fun _ => 1%R) GP GX.
Proof.
  assert (H : net_ok [1; 1] mlp) by (cbn; repeat split; repeat constructor; lia).
  destruct (C105_environment (R + Z) cell_r [1; 1] mlp 1 2 (fun _ _ => 1%R) (fun _ => 1%R) (fun _ => 1%R) H)
    as (E & s & OK & HM & HX & HP & HY & HG); try lia.
  destruct (C105_train cell_r cell_z 0%R mlp [1; 1] 1 2 E H eq_refl ltac:(lia) ltac:(lia) OK
    [LMatmul Builtin 1 1 2; LBias 1 2; LRelu [1; 2]; LMatmul Builtin 1 2 2] eq_refl 1 (fun _ _ => 1%R) (fun _ => 1%R)
    (fun _ => 1%R) s HM HX HP HY HG) as (s' & Q & E' & Q0 & P' & _ & _ & _ & V).
  destruct (V 0%nat ltac:(lia)) as (GP & GX & Q1 & G). rewrite Q1, Q0 in P'. rewrite Q0 in G.
  exists E, s, s', GP, GX. split; [exact OK|]. split; [exact E'|]. split; [exact HP|]. split; [exact P'|].
  apply G, mlp_smooth.
Qed.

Print Assumptions C105_backprop.
Print Assumptions C105_step.
Print Assumptions C105_inputs.
Print Assumptions C105_positive.
Print Assumptions C105_train.
Print Assumptions C105_unique.
Print Assumptions C105_corner_refuted.
Print Assumptions C105_environment.
