(** Proofs about backpropagation: the calls of one layer, and of a network. *)
From Coq Require Import ZArith List Bool Lia Reals Lra.
From Coquelicot Require Import Coquelicot.
From Verif Require Import Base BaseFacts Traits Scalar RealScalar SumFacts TensorFacts LinAlg LinAlgFacts Shapes Conv
  ConvSpec ConvFacts GradSpec Elem ElemSpec ElemFacts ElemGradFacts PropsElem Activation ActivationSpec ActivationFacts SoftmaxFacts
  PropsSoftmax PropsNorm Pool Summary PropsSummary Reshape PropsReshape PropsConv Backprop BackpropSpec ConvGradFacts BackpropFacts.
Import ListNotations.
Open Scope Z_scope.
Open Scope model_scope.

Section Layer.
  Context {V : Type} (dt : dtype V R) (di : dtype V Z) (eps : R).

  Lemma sizes3 : forall e a b c, sizes_ok e [a; b; c] -> 0 <= a /\ 0 <= b /\ 0 <= c.
  Proof.
    intros e a b c H. apply sizes_pos in H. unfold nonneg in H. rewrite !Forall_cons_iff in H. tauto.
  Qed.

  Lemma ret_empty : forall (t : tensor) (s : st V) X, tdims t = [0] -> writes dt (ret tt) s t X.
  Proof.
    intros t s X E. exists s. split; [reflexivity|]. split; [|apply only_changes_refl].
    intros ix Hix. rewrite E in Hix. destruct ix as [|i [|]]; cbn in Hix; lia.
  Qed.

  Lemma forward_writes : forall L z x p P X s, layer_ok L ->
    tdims z = out_shape L -> tdims x = in_shape L -> tdims p = par_shape L ->
    fresh_ok s -> holds dt s x X -> holds dt s p P -> mapped s z -> disjoint z x -> disjoint z p ->
    writes dt (forward dt di Rsc exp eps L z x p) s z (layer_fn eps L P X).
  Proof.
    intros L z x p P X s Hok Ez Ex Ep Hf HX HP HZ D1 D2.
    destruct (layer_nonneg L Hok) as (Ni & No & Np).
    assert (Dz : dims_ok z) by (unfold dims_ok; rewrite Ez; exact No).
    assert (Dx : dims_ok x) by (unfold dims_ok; rewrite Ex; exact Ni).
    destruct L as [ds|ds|e m l n|m n|n h w c|e C n h w c r t d h' w'|ds|m n|rs ds];
      cbn [forward layer_fn out_shape in_shape par_shape layer_ok] in *.
    - apply (C27_add dt Rsc z x p X P s); auto; try congruence; left; auto.
    - apply (C27_mul dt Rsc z x p X P s); auto; try congruence; left; auto.
    - destruct (sizes3 _ _ _ _ Hok) as (Hm & Hl & Hn).
      apply (C26_matmul dt Rsc e z x p m l n X P s); auto.
      eapply sizes_engine; [exact Hok|]. apply incl_refl.
    - eapply writes_ext; [reflexivity| |apply (C30_add_bias dt Rsc hw 2 1 z x p n X P s); auto].
      + intros ix Hix. rewrite Ez in Hix. apply valid_2 in Hix. destruct Hix as (i & j & -> & _). reflexivity.
      + left; auto.
      + rewrite Ez; reflexivity.
      + congruence.
      + rewrite Ez; reflexivity.
      + left; auto.
    - eapply writes_ext; [reflexivity| |apply (C30_add_bias dt Rsc nhwc 4 3 z x p c X P s); auto].
      + intros ix Hix. rewrite Ez in Hix. apply valid_4 in Hix. destruct Hix as (i & j & k & t & -> & _). reflexivity.
      + right; left; auto.
      + rewrite Ez; reflexivity.
      + congruence.
      + rewrite Ez; reflexivity.
      + left; auto.
    - destruct Hok as (A1 & A2 & A3 & A4). destruct (sizes3 _ _ _ _ A3) as (Hn & Hc & Hd).
      apply (C16_conv_nhwc dt di Rsc e C z x p n h w c r t d h' w' X P s); auto.
      eapply sizes_engine; [exact A3|]. apply incl_refl.
    - eapply writes_ext; [reflexivity| |apply (C28_relu dt Rsc z x X s); auto; try congruence; left; auto].
      intros ix _. cbn. unfold Rltb. destruct (Rlt_dec 0 (X ix)).
      + rewrite Rmax_left; lra.
      + rewrite Rmax_right; lra.
    - eapply writes_ext; [reflexivity| |apply (C33_value dt eps z x [m] n X s); auto].
      intros ix Hix. rewrite Ez in Hix. apply valid_2 in Hix. destruct Hix as (i & j & -> & _). reflexivity.
    - destruct Hok as [_ Hc]. rewrite <- Ez, <- Ex. apply (C67_value dt rs z x X s); auto.
      + unfold covers. rewrite Ex. exact Hc.
      + unfold copy_flatten_shape. rewrite Ex, Ez. reflexivity.
  Qed.

  Lemma backward_par_writes : forall L gp gz x X GZ s, layer_ok L ->
    tdims gp = par_shape L -> tdims gz = out_shape L -> tdims x = in_shape L ->
    fresh_ok s -> holds dt s x X -> holds dt s gz GZ -> mapped s gp -> disjoint gp gz -> disjoint gp x ->
    writes dt (backward_par dt Rsc L gp gz x) s gp (layer_gp L X GZ).
  Proof.
    intros L gp gz x X GZ s Hok Ep Ez Ex Hf HX HG HP D1 D2.
    destruct (layer_nonneg L Hok) as (Ni & No & Np).
    assert (Dz : dims_ok gz) by (unfold dims_ok; rewrite Ez; exact No).
    assert (Dp : dims_ok gp) by (unfold dims_ok; rewrite Ep; exact Np).
    destruct L as [ds|ds|e m l n|m n|n h w c|e C n h w c r t d h' w'|ds|m n|rs ds];
      cbn [backward_par layer_gp out_shape in_shape par_shape layer_ok] in *.
    - apply C27_identity; auto; [congruence|left; auto].
    - apply (C27_mul dt Rsc gp gz x GZ X s); auto; try congruence; left; auto.
    - destruct (sizes3 _ _ _ _ Hok) as (Hm & Hl & Hn). unfold grad_matmul1, k_mtm.
      apply (e_mtm_writes dt Rsc e x gz gp l m n X GZ); auto.
      eapply sizes_engine; [exact Hok|]. intros q [<-|[<-|[<-|[]]]]; cbn; auto.
    - apply (outter_contraction_writes dt Rsc gp gz m [n] GZ); auto. tauto.
    - assert (N3 : nonneg [n; h; w]) by (unfold nonneg; rewrite !Forall_cons_iff; intuition).
      unfold grad_bias1_nhwc. eapply writes_ext; [reflexivity| |
        apply (outter_contraction_writes dt Rsc gp (as_matrix 3 gz) (prod [n; h; w]) [c]
          (arg2 (fun a b => GZ (expand [n; h; w] a ++ expand [c] b)))); auto].
      + intros ix Hix. rewrite Ep in Hix. apply valid_1 in Hix. destruct Hix as (k & -> & Hk).
        apply sum_over_ext. intros i Hi. unfold arg2; cbn [nth]. rewrite (expand_1 c k Hk). reflexivity.
      + rewrite tdims_as_matrix, Ez. cbn [firstn skipn]. do 2 f_equal. cbn. lia.
      + apply prod_nonneg; auto.
      + pose proof (holds_as_matrix dt s 3 gz GZ) as Q. rewrite Ez in Q. apply Q; auto.
      + intros q Hq Hz. apply (D1 q); auto. exact (proj1 (foot_as_matrix 3 gz q) Hz).
    - destruct Hok as (A1 & A2 & A3 & A4). destruct (sizes3 _ _ _ _ A3) as (Hn & Hc & Hd).
      apply (conv_grad_y_writes dt Rsc e C gp gz x n h w c r t d h' w' GZ X s); auto.
      eapply sizes_engine; [exact A3|]. apply incl_refl.
    - apply ret_empty; auto.
    - apply ret_empty; auto.
    - apply ret_empty; auto.
  Qed.

  Lemma backward_in_writes : forall L gx gz z x p P X GZ s, layer_ok L ->
    tdims gx = in_shape L -> tdims gz = out_shape L -> tdims z = out_shape L -> tdims x = in_shape L ->
    tdims p = par_shape L ->
    fresh_ok s -> holds dt s x X -> holds dt s p P -> holds dt s gz GZ -> holds dt s z (layer_fn eps L P X) ->
    mapped s gx -> disjoint gx gz -> disjoint gx z -> disjoint gx x -> disjoint gx p ->
    writes dt (backward_in dt Rsc L gx gz z x p) s gx (layer_gx eps L P X GZ).
  Proof.
    intros L gx gz z x p P X GZ s Hok Egx Egz Ez Ex Ep Hf HX HP HG HZ HM D1 D2 D3 D4.
    destruct (layer_nonneg L Hok) as (Ni & No & Np).
    assert (Dz : dims_ok gz) by (unfold dims_ok; rewrite Egz; exact No).
    assert (Dx : dims_ok gx) by (unfold dims_ok; rewrite Egx; exact Ni).
    destruct L as [ds|ds|e m l n|m n|n h w c|e C n h w c r t d h' w'|ds|m n|rs ds];
      cbn [backward_in layer_gx layer_fn out_shape in_shape par_shape layer_ok] in *.
    - apply C27_identity; auto; [congruence|left; auto].
    - apply (C27_mul dt Rsc gx gz p GZ P s); auto; try congruence; left; auto.
    - destruct (sizes3 _ _ _ _ Hok) as (Hm & Hl & Hn). unfold grad_matmul0, k_mmt.
      apply (e_mmt_writes dt Rsc e gz p gx m n l GZ P); auto.
      eapply sizes_engine; [exact Hok|]. intros q [<-|[<-|[<-|[]]]]; cbn; auto.
    - apply C27_identity; auto; [congruence|left; auto].
    - apply C27_identity; auto; [congruence|left; auto].
    - destruct Hok as (A1 & A2 & A3 & A4). destruct (sizes3 _ _ _ _ A3) as (Hn & Hc & Hd).
      apply (conv_grad_x_writes dt Rsc e C gx gz p n h w c r t d h' w' GZ P s); auto.
      eapply sizes_engine; [exact A3|]. apply incl_refl.
    - apply (C28_grad dt Rsc gx gz x GZ X s); auto; try congruence; left; auto.
    - destruct Hok as [Hm Hn].
      eapply writes_ext; [reflexivity| |apply (softmax_grad2_writes dt Rsc gx gz z x m n GZ
        (arg2 (fun i j => softmax_fn eps n (fun k => X [i; k]) j))); auto].
      intros ix Hix. rewrite Egx in Hix. apply valid_2 in Hix. destruct Hix as (i & j & -> & _). reflexivity.
    - destruct Hok as [_ Hc]. rewrite <- Egz, <- Egx. unfold grad_copy_flatten. apply copy_writes; auto.
      unfold size. rewrite Egz, Egx. symmetry. apply (C67_size rs ds Hc).
  Qed.

  Lemma update_writes : forall L p gp P GP s, layer_ok L ->
    tdims p = par_shape L -> tdims gp = par_shape L ->
    holds dt s p P -> holds dt s gp GP -> mapped s p -> disjoint p gp ->
    writes dt (if has_par L then op_sub dt Rsc p p gp else ret tt) s p (tsub Rsc P GP).
  Proof.
    intros L p gp P GP s Hok Ep Eg HP HG HM D.
    assert (Dp : dims_ok p) by (unfold dims_ok; rewrite Ep; apply (layer_nonneg L Hok)).
    destruct (has_par L) eqn:B.
    - apply (C27_sub dt Rsc p p gp P GP s); auto; try congruence; [right; repeat split|left; auto].
    - apply ret_empty. rewrite Ep. destruct L; cbn in B; try discriminate; reflexivity.
  Qed.
End Layer.

(** ** The network *)

Definition node_eq_dec : forall c c' : node, {c = c'} + {c <> c'}.
Proof. decide equality; apply Nat.eq_dec. Defined.

Lemma net_nodes_ge : forall net k d0 c ds, net_nodes k d0 net c = Some ds ->
  match c with Out i | GOut i | Par i | GPar i => (k <= i)%nat | _ => False end.
Proof.
  induction net as [|L net IH]; intros k d0 c ds; cbn.
  - destruct c as [i|i|i|i| | | |]; try discriminate; destruct (Nat.eqb_spec i k); try discriminate; lia.
  - destruct c as [i|i|i|i| | | |]; try discriminate; destruct (Nat.eqb_spec i k); try (intros; lia);
      intros H; apply IH in H; lia.
Qed.

Lemma net_nodes_tail : forall L net k d0 c ds, net_nodes (S k) (out_shape L) net c = Some ds ->
  net_nodes k d0 (L :: net) c = Some ds.
Proof.
  intros L net k d0 c ds H. pose proof (net_nodes_ge _ _ _ _ _ H) as G. cbn.
  destruct c as [i|i|i|i| | | |]; try contradiction; destruct (Nat.eqb_spec i k); try lia; exact H.
Qed.

Lemma net_nodes_first : forall net k d0, net_nodes k d0 net (Out k) = Some d0 /\ net_nodes k d0 net (GOut k) = Some d0.
Proof. intros [|L net] k d0; cbn; rewrite Nat.eqb_refl; auto. Qed.

Lemma net_nodes_nonneg : forall net k d0 c ds, net_ok d0 net -> net_nodes k d0 net c = Some ds -> nonneg ds.
Proof.
  induction net as [|L net IH]; intros k d0 c ds H; cbn in H |- *.
  - destruct c as [i|i|i|i| | | |]; try discriminate; destruct (Nat.eqb_spec i k); try discriminate;
      intros Q; injection Q as <-; exact H.
  - destruct H as (H1 & H2 & H3). destruct (layer_nonneg L H1) as (Ni & No & Np). rewrite H2 in Ni.
    destruct c as [i|i|i|i| | | |]; try discriminate; destruct (Nat.eqb_spec i k);
      try (intros Q; injection Q as <-; assumption); apply IH; auto.
Qed.

Section Net.
  Context {V : Type} (dt : dtype V R) (di : dtype V Z) (eps : R).
  Context (sh : node -> option (list Z)) (E : node -> tensor).
  Context (OK : nodes_ok sh E) (NN : forall c ds, sh c = Some ds -> nonneg ds).

  Definition known := node -> option tens.
  Definition learn (A : known) (c : node) (X : tens) : known := fun u => if node_eq_dec u c then Some X else A u.

  Lemma learn_eq : forall A c X, learn A c X c = Some X.
  Proof using. intros. unfold learn. destruct (node_eq_dec c c); congruence. Qed.
  Lemma learn_neq : forall A c X u, u <> c -> learn A c X u = A u.
  Proof using. intros. unfold learn. destruct (node_eq_dec u c); congruence. Qed.

  Definition inv (A : known) (s : st V) : Prop :=
    fresh_ok s /\ (forall c, sh c <> None -> mapped s (E c)) /\ forall c X, A c = Some X -> holds dt s (E c) X /\ sh c <> None.

  Lemma only_nodes_refl : forall P (s : st V), only_nodes P E s s.
  Proof using. intros. split; [lia|auto]. Qed.
  Lemma only_nodes_trans : forall P (s1 s2 s3 : st V),
    only_nodes P E s1 s2 -> only_nodes P E s2 s3 -> only_nodes P E s1 s3.
  Proof using. intros P s1 s2 s3 [N1 F1] [N2 F2]. split; [lia|]. intros p Hp. rewrite F2, F1; auto. Qed.
  Lemma only_nodes_weaken : forall (P Q : node -> Prop) (s s' : st V),
    (forall c, P c -> Q c) -> only_nodes P E s s' -> only_nodes Q E s s'.
  Proof using. intros P Q s s' H [N F]. split; [lia|]. intros p Hp. apply F. auto. Qed.

  Lemma sh_dims : forall c ds, sh c = Some ds -> tdims (E c) = ds.
  Proof using OK. apply (proj1 OK). Qed.
  Lemma sh_disj : forall c c' ds ds', sh c = Some ds -> sh c' = Some ds' -> c <> c' -> disjoint (E c) (E c').
  Proof using OK. intros c c' ds ds' H H' N. apply (proj2 OK); congruence. Qed.
  Lemma sh_dims_ok : forall c ds, sh c = Some ds -> dims_ok (E c).
  Proof using OK NN. intros c ds H. unfold dims_ok. rewrite (sh_dims c ds H). eapply NN; eauto. Qed.

  Lemma inv_step : forall A s m c X ds (P : node -> Prop),
    inv A s -> sh c = Some ds -> P c -> writes dt m s (E c) X ->
    exists s', m s = Ok tt s' /\ inv (learn A c X) s' /\ only_nodes P E s s'.
  Proof using OK NN.
    intros A s m c X ds P (Hf & Hm & HA) Sc Pc (s' & Es & H & O). destruct OK as [_ D].
    assert (Sc' : sh c <> None) by congruence.
    exists s'. split; [exact Es|]. split; [split; [|split]|].
    - eapply fresh_ok_only_changes; eauto.
    - intros u Su. destruct (node_eq_dec u c) as [->|Ne].
      + eapply holds_mapped; [eapply sh_dims_ok; eauto|exact H].
      + intros p Hp. destruct O as [_ F]. rewrite F; [apply (Hm u); auto|]. intros Q. exact (D u c Su Sc' Ne p Hp Q).
    - intros u Y. unfold learn. destruct (node_eq_dec u c) as [->|Ne]; intros Q.
      + injection Q as <-. auto.
      + destruct O as [_ F]. destruct (HA u Y Q) as [Hu Su]. split; [|exact Su].
        eapply holds_frame_disj; [exact Hu|exact F|]. apply D; auto.
    - destruct O as [N F]. split; [lia|]. intros p Hp. apply F, Hp, Pc.
  Qed.

  (** What is known before and after the passes. *)
  Fixpoint pars_known (k : nat) (net : list layer) (P : nat -> tens) (A : known) : Prop :=
    match net with
    | [] => True
    | L :: net => A (Par k) = Some (P k) /\ pars_known (S k) net P A
    end.
  Fixpoint gpars_known (k : nat) (net : list layer) (G : nat -> tens) (A : known) : Prop :=
    match net with
    | [] => True
    | L :: net => A (GPar k) = Some (G k) /\ gpars_known (S k) net G A
    end.
  Fixpoint outs_known (k : nat) (net : list layer) (P : nat -> tens) (X : tens) (A : known) : Prop :=
    A (Out k) = Some X /\
    match net with
    | [] => True
    | L :: net => A (Par k) = Some (P k) /\ outs_known (S k) net P (layer_fn eps L (P k) X) A
    end.

  Lemma pars_known_ext : forall net k P A A', (forall i, (k <= i)%nat -> A' (Par i) = A (Par i)) ->
    pars_known k net P A -> pars_known k net P A'.
  Proof using.
    induction net as [|L net IH]; intros k P A A' H; cbn; auto. intros [H1 H2]. split.
    - rewrite H by lia. exact H1.
    - eapply IH; [|exact H2]. intros i Hi. apply H. lia.
  Qed.
  Lemma gpars_known_ext : forall net k G G' A A', (forall i, (k <= i)%nat -> A' (GPar i) = A (GPar i)) ->
    (forall i, (k <= i)%nat -> G' i = G i) ->
    gpars_known k net G A -> gpars_known k net G' A'.
  Proof using.
    induction net as [|L net IH]; intros k G G' A A' H HG; cbn; auto. intros [H1 H2]. split.
    - rewrite H, HG by lia. exact H1.
    - eapply IH; [| |exact H2]; intros i Hi; [apply H|apply HG]; lia.
  Qed.
  Lemma outs_known_ext : forall net k P X A A',
    (forall i, (k <= i)%nat -> A' (Par i) = A (Par i)) -> (forall i, (k <= i)%nat -> A' (Out i) = A (Out i)) ->
    outs_known k net P X A -> outs_known k net P X A'.
  Proof using.
    induction net as [|L net IH]; intros k P X A A' H1 H2; cbn.
    - intros [Q _]. split; auto. rewrite H2 by lia. exact Q.
    - intros (Q1 & Q2 & Q3). split; [rewrite H2 by lia; exact Q1|]. split; [rewrite H1 by lia; exact Q2|].
      eapply IH; [| |exact Q3]; intros i Hi; [apply H1|apply H2]; lia.
  Qed.
  Lemma outs_pars : forall net k P X A, outs_known k net P X A -> pars_known k net P A.
  Proof using.
    induction net as [|L net IH]; intros k P X A; cbn; auto. intros (_ & Q2 & Q3). split; eauto.
  Qed.
  Lemma outs_last : forall net k P X A, outs_known k net P X A ->
    A (Out (k + length net)) = Some (net_fn eps k net P X).
  Proof using.
    induction net as [|L net IH]; intros k P X A; cbn.
    - intros [Q _]. rewrite Nat.add_0_r. exact Q.
    - intros (_ & _ & Q). rewrite Nat.add_succ_r. apply (IH (S k)); auto.
  Qed.

  Definition within (k : nat) (d0 : list Z) (net : list layer) : Prop :=
    forall c ds, net_nodes k d0 net c = Some ds -> sh c = Some ds.

  Lemma within_tail : forall L net k d0, within k d0 (L :: net) -> within (S k) (out_shape L) net.
  Proof using. intros L net k d0 W c ds H. apply W, net_nodes_tail, H. Qed.

  Lemma within_head : forall L net k d0, within k d0 (L :: net) ->
    sh (Out k) = Some d0 /\ sh (GOut k) = Some d0 /\ sh (Par k) = Some (par_shape L) /\ sh (GPar k) = Some (par_shape L) /\
    sh (Out (S k)) = Some (out_shape L) /\ sh (GOut (S k)) = Some (out_shape L).
  Proof using.
    intros L net k d0 W. destruct (net_nodes_first net (S k) (out_shape L)) as [F1 F2].
    repeat split; apply W; try (cbn; rewrite Nat.eqb_refl; reflexivity); apply net_nodes_tail; auto.
  Qed.

  Lemma forward_from_ok : forall net k d0 P X A s, within k d0 net -> net_ok d0 net ->
    inv A s -> A (Out k) = Some X -> pars_known k net P A ->
    exists s' A', forward_from dt di Rsc exp eps E k net s = Ok tt s' /\ inv A' s' /\ outs_known k net P X A' /\
      only_nodes (fun c => exists i, (k < i <= k + length net)%nat /\ c = Out i) E s s' /\
      (forall c, (forall i, (k < i <= k + length net)%nat -> c <> Out i) -> A' c = A c).
  Proof using OK NN.
    induction net as [|L net IH]; intros k d0 P X A s W H HI HX HP.
    - exists s, A. split; [reflexivity|]. split; [exact HI|]. split; [cbn; auto|]. split; [apply only_nodes_refl|auto].
    - destruct H as (H1 & H2 & H3). destruct HP as [HP1 HP2]. subst d0.
      destruct (within_head _ _ _ _ W) as (S1 & S2 & S3 & S4 & S5 & S6).
      pose proof HI as (If & Im & Ih).
      destruct (inv_step A s (forward dt di Rsc exp eps L (E (Out (S k))) (E (Out k)) (E (Par k))) (Out (S k))
        (layer_fn eps L (P k) X) (out_shape L)
        (fun c => exists i, (k < i <= k + S (length net))%nat /\ c = Out i) HI S5) as (s1 & E1 & I1 & O1).
      { exists (S k). split; [lia|reflexivity]. }
      { apply forward_writes; auto; try (apply sh_dims; assumption).
        - apply Ih; auto.
        - apply Ih; auto.
        - apply Im. congruence.
        - eapply sh_disj; eauto. intros Q; injection Q; lia.
        - eapply sh_disj; eauto. discriminate. }
      destruct (IH (S k) (out_shape L) P (layer_fn eps L (P k) X) _ s1 (within_tail _ _ _ _ W) H3 I1)
        as (s2 & A2 & E2 & I2 & K2 & O2 & U2).
      { apply learn_eq. }
      { eapply pars_known_ext; [|exact HP2]. intros i _. apply learn_neq. discriminate. }
      exists s2, A2. cbn [forward_from]. rewrite (bind_ok _ _ _ _ _ E1). split; [exact E2|]. split; [exact I2|].
      split; [|split].
      + cbn [outs_known]. split; [|split; [|exact K2]].
        * rewrite U2, learn_neq; auto; [intros Q; injection Q; lia|]. intros i Hi Q. injection Q as Q. lia.
        * rewrite U2, learn_neq; auto; discriminate.
      + eapply only_nodes_trans; [exact O1|]. eapply only_nodes_weaken; [|exact O2].
        intros c (i & Hi & ->). exists i. split; [cbn [length]; lia|reflexivity].
      + intros c Hc. cbn [length] in Hc. rewrite U2, learn_neq; auto.
        * apply Hc. lia.
        * intros i Hi. apply Hc. lia.
  Qed.

  (** The chain rule. *)
  Definition net_vjp (k : nat) (d0 : list Z) (net : list layer) (P : nat -> tens) (X GZ : tens)
    (GP : nat -> tens) (GX : tens) : Prop :=
    forall (cp : nat -> R -> tens) cx dP dX, moves d0 cx X dX ->
    (forall j ds, moves ds (cp j) (P j) (dP j)) ->
    exists dZ, moves (net_out d0 net) (fun t => net_fn eps k net (fun j => cp j t) (cx t)) (net_fn eps k net P X) dZ /\
      (inner Rsc (net_out d0 net) GZ dZ = par_inner k net GP dP + inner Rsc d0 GX dX)%R.

  Lemma par_inner_ext : forall net k G G' D, (forall i, (k <= i)%nat -> G i = G' i) ->
    par_inner k net G D = par_inner k net G' D.
  Proof using.
    induction net as [|L net IH]; intros k G G' D H; cbn; auto. rewrite H by lia.
    rewrite (IH (S k) G G'); auto. intros i Hi. apply H. lia.
  Qed.

  Lemma chain_rule : forall L net k P X GZ GP GX GP',
    layer_ok L -> smooth eps L X ->
    net_vjp (S k) (out_shape L) net P (layer_fn eps L (P k) X) GZ GP GX ->
    GP' k = layer_gp L X GX -> (forall i, (S k <= i)%nat -> GP' i = GP i) ->
    net_vjp k (in_shape L) (L :: net) P X GZ GP' (layer_gx eps L (P k) X GX).
  Proof using.
    intros L net k P X GZ GP GX GP' Hok Hs Hn E1 E2 cp cx dP dX Mx Mp.
    destruct (layer_vjp_ok eps L (P k) X GX Hok Hs (cp k) cx (dP k) dX (Mp k _) Mx) as (dY & MY & EY).
    destruct (Hn cp (fun t => layer_fn eps L (cp k t) (cx t)) dP dY MY Mp) as (dZ & MZ & EZ).
    exists dZ. split; [exact MZ|]. cbn [net_out par_inner]. rewrite EZ, EY, E1.
    rewrite (par_inner_ext net (S k) GP GP') by (intros; symmetry; auto). ring.
  Qed.

  Lemma backward_from_ok : forall net k d0 P X GZ A s, within k d0 net -> net_ok d0 net ->
    inv A s -> outs_known k net P X A -> A (GOut (k + length net)) = Some GZ ->
    exists s' A' GP GX, backward_from dt Rsc E k net s = Ok tt s' /\ inv A' s' /\
      A' (GOut k) = Some GX /\ gpars_known k net GP A' /\
      only_nodes (fun c => exists i, (k <= i < k + length net)%nat /\ (c = GOut i \/ c = GPar i)) E s s' /\
      (forall c, (forall i, (k <= i < k + length net)%nat -> c <> GOut i /\ c <> GPar i) -> A' c = A c) /\
      (net_smooth eps k net P X -> net_vjp k d0 net P X GZ GP GX).
  Proof using OK NN.
    induction net as [|L net IH]; intros k d0 P X GZ A s W H HI HK HZ.
    - cbn [length] in HZ. rewrite Nat.add_0_r in HZ. exists s, A, (fun _ => GZ), GZ.
      split; [reflexivity|]. split; [exact HI|]. split; [exact HZ|]. split; [exact I|].
      split; [apply only_nodes_refl|]. split; [auto|]. intros _.
      intros cp cx dP dX Mx _. exists dX. split; [exact Mx|]. cbn [net_out par_inner]. rewrite Rplus_0_l. reflexivity.
    - destruct H as (H1 & H2 & H3). destruct HK as (K1 & K2 & K3). subst d0.
      destruct (within_head _ _ _ _ W) as (S1 & S2 & S3 & S4 & S5 & S6).
      destruct (IH (S k) (out_shape L) P (layer_fn eps L (P k) X) GZ A s (within_tail _ _ _ _ W) H3 HI K3)
        as (s1 & A1 & GP & GX & E1 & I1 & G1 & GP1 & O1 & U1 & V1).
      { cbn [length] in HZ. rewrite Nat.add_succ_r in HZ. exact HZ. }
      assert (Hin : forall c, (forall i, c <> GOut i /\ c <> GPar i) -> A1 c = A c).
      { intros c Hc. apply U1. intros i _. apply Hc. }
      assert (Q1 : A1 (Out k) = Some X) by (rewrite Hin; auto; split; discriminate).
      assert (Q2 : A1 (Par k) = Some (P k)) by (rewrite Hin; auto; split; discriminate).
      assert (Q3 : A1 (Out (S k)) = Some (layer_fn eps L (P k) X)).
      { rewrite Hin by (split; discriminate). destruct net; apply K3. }
      set (Pr := fun c => exists i, (k <= i < k + S (length net))%nat /\ (c = GOut i \/ c = GPar i)).
      pose proof I1 as (If & Im & Ih).
      destruct (inv_step A1 s1 (backward_par dt Rsc L (E (GPar k)) (E (GOut (S k))) (E (Out k))) (GPar k)
        (layer_gp L X GX) (par_shape L) Pr I1 S4) as (s2 & E2 & I2 & O2).
      { exists k. split; [lia|auto]. }
      { apply backward_par_writes; auto; try (apply sh_dims; assumption).
        - apply Ih; auto.
        - apply Ih; auto.
        - apply Im. congruence.
        - eapply sh_disj; eauto. discriminate.
        - eapply sh_disj; eauto. discriminate. }
      set (A2 := learn A1 (GPar k) (layer_gp L X GX)) in *.
      assert (R1 : A2 (Out k) = Some X) by (unfold A2; rewrite learn_neq; auto; discriminate).
      assert (R2 : A2 (Par k) = Some (P k)) by (unfold A2; rewrite learn_neq; auto; discriminate).
      assert (R3 : A2 (Out (S k)) = Some (layer_fn eps L (P k) X)) by (unfold A2; rewrite learn_neq; auto; discriminate).
      assert (R4 : A2 (GOut (S k)) = Some GX) by (unfold A2; rewrite learn_neq; auto; discriminate).
      clear Ih Im If. pose proof I2 as (If & Im & Ih).
      destruct (inv_step A2 s2 (backward_in dt Rsc L (E (GOut k)) (E (GOut (S k))) (E (Out (S k))) (E (Out k)) (E (Par k)))
        (GOut k) (layer_gx eps L (P k) X GX) (in_shape L) Pr I2 S2) as (s3 & E3 & I3 & O3).
      { exists k. split; [lia|auto]. }
      { apply backward_in_writes; auto; try (apply sh_dims; assumption); try (apply Ih; assumption).
        - apply Im. congruence.
        - eapply sh_disj; eauto. intros Q; injection Q; lia.
        - eapply sh_disj; eauto. discriminate.
        - eapply sh_disj; eauto. discriminate.
        - eapply sh_disj; eauto. discriminate. }
      set (GP' := fun i => if Nat.eqb i k then layer_gp L X GX else GP i).
      assert (Gk : GP' k = layer_gp L X GX) by (unfold GP'; rewrite Nat.eqb_refl; reflexivity).
      assert (Gi : forall i, (S k <= i)%nat -> GP' i = GP i).
      { intros i Hi. unfold GP'. destruct (Nat.eqb_spec i k); [lia|reflexivity]. }
      eexists s3, _, GP', _. cbn [backward_from]. rewrite (bind_ok _ _ _ _ _ E1), (bind_ok _ _ _ _ _ E2).
      split; [exact E3|]. split; [exact I3|]. split; [apply learn_eq|].
      split; [|split; [|split]].
      + cbn [gpars_known]. split.
        * rewrite Gk, learn_neq by discriminate. unfold A2. apply learn_eq.
        * eapply gpars_known_ext; [|exact Gi|exact GP1]. intros i Hi.
          rewrite learn_neq by discriminate. unfold A2. rewrite learn_neq; [reflexivity|]. intros Q; injection Q; lia.
      + eapply only_nodes_trans; [|eapply only_nodes_trans; [exact O2|exact O3]].
        eapply only_nodes_weaken; [|exact O1]. intros c (i & Hi & Hc). exists i. split; [cbn [length]; lia|exact Hc].
      + intros c Hc. cbn [length] in Hc. destruct (Hc k ltac:(lia)) as [N1 N2].
        rewrite learn_neq by auto. unfold A2. rewrite learn_neq by auto. apply U1. intros i Hi. apply Hc. lia.
      + intros [Hs1 Hs2]. apply (chain_rule L net k P X GZ GP GX GP'); auto.
  Qed.

  Lemma update_from_ok : forall net k d0 P G A s, within k d0 net -> net_ok d0 net ->
    inv A s -> pars_known k net P A -> gpars_known k net G A ->
    exists s' A', update_from dt Rsc E k net s = Ok tt s' /\ inv A' s' /\
      pars_known k net (fun i => tsub Rsc (P i) (G i)) A' /\
      only_nodes (fun c => exists i, (k <= i < k + length net)%nat /\ c = Par i) E s s' /\
      (forall c, (forall i, (k <= i < k + length net)%nat -> c <> Par i) -> A' c = A c).
  Proof using OK NN.
    induction net as [|L net IH]; intros k d0 P G A s W H HI HP HG.
    - exists s, A. split; [reflexivity|]. split; [exact HI|]. split; [exact I|]. split; [apply only_nodes_refl|auto].
    - destruct H as (H1 & H2 & H3). destruct HP as [P1 P2]. destruct HG as [G1 G2].
      destruct (within_head _ _ _ _ W) as (S1 & S2 & S3 & S4 & S5 & S6).
      pose proof HI as (If & Im & Ih).
      destruct (inv_step A s (if has_par L then op_sub dt Rsc (E (Par k)) (E (Par k)) (E (GPar k)) else ret tt) (Par k)
        (tsub Rsc (P k) (G k)) (par_shape L)
        (fun c => exists i, (k <= i < k + S (length net))%nat /\ c = Par i) HI S3) as (s1 & E1 & I1 & O1).
      { exists k. split; [lia|reflexivity]. }
      { apply update_writes; auto; try (apply sh_dims; assumption).
        - apply Ih; auto.
        - apply Ih; auto.
        - apply Im. congruence.
        - eapply sh_disj; eauto. discriminate. }
      destruct (IH (S k) (out_shape L) P G _ s1 (within_tail _ _ _ _ W) H3 I1) as (s2 & A2 & E2 & I2 & K2 & O2 & U2).
      { eapply pars_known_ext; [|exact P2]. intros i Hi. apply learn_neq. intros Q; injection Q; lia. }
      { eapply gpars_known_ext; [| |exact G2]; auto. }
      exists s2, A2. cbn [update_from]. rewrite (bind_ok _ _ _ _ _ E1). split; [exact E2|]. split; [exact I2|].
      split; [|split].
      + cbn [pars_known]. split; [|exact K2]. rewrite U2; [apply learn_eq|]. intros i Hi Q; injection Q; lia.
      + eapply only_nodes_trans; [exact O1|]. eapply only_nodes_weaken; [|exact O2].
        intros c (i & Hi & ->). exists i. split; [cbn [length]; lia|reflexivity].
      + intros c Hc. cbn [length] in Hc. rewrite U2, learn_neq; auto.
        * apply Hc. lia.
        * intros i Hi. apply Hc. lia.
  Qed.

  (** ** The state before the passes *)

  Lemma inv_learn : forall A s c X, inv A s -> sh c <> None -> holds dt s (E c) X -> inv (learn A c X) s.
  Proof using.
    intros A s c X (Hf & Hm & HA) Sc H. split; [exact Hf|]. split; [exact Hm|].
    intros u Y. unfold learn. destruct (node_eq_dec u c) as [->|Ne]; intros Q; [injection Q as <-|]; auto.
  Qed.

  Lemma init_pars : forall net k d0 P s A, within k d0 net -> inv A s -> pars_held dt E s k net P ->
    exists A', inv A' s /\ pars_known k net P A' /\
      (forall c, (forall i, (k <= i)%nat -> c <> Par i) -> A' c = A c).
  Proof using.
    induction net as [|L net IH]; intros k d0 P s A W HI HP.
    - exists A. split; [exact HI|]. split; [exact I|auto].
    - destruct HP as [P1 P2]. destruct (within_head _ _ _ _ W) as (_ & _ & S3 & _).
      destruct (IH (S k) (out_shape L) P s (learn A (Par k) (P k)) (within_tail _ _ _ _ W)) as (A' & I' & K' & U'); auto.
      { apply inv_learn; auto. congruence. }
      exists A'. split; [exact I'|]. split.
      + cbn. split; [|exact K']. rewrite U'; [apply learn_eq|]. intros i Hi Q; injection Q; lia.
      + intros c Hc. rewrite U'; [apply learn_neq; auto|]. intros i Hi. apply Hc. lia.
  Qed.

  Lemma pars_known_held : forall net k P A s, inv A s -> pars_known k net P A -> pars_held dt E s k net P.
  Proof using.
    induction net as [|L net IH]; intros k P A s HI; cbn; auto. intros [H1 H2]. split; [apply HI; exact H1|eauto].
  Qed.
  Lemma gpars_known_held : forall net k G A s, inv A s -> gpars_known k net G A -> grads_held dt E s k net G.
  Proof using.
    induction net as [|L net IH]; intros k P A s HI; cbn; auto. intros [H1 H2]. split; [apply HI; exact H1|eauto].
  Qed.

  Lemma inv_nothing : forall s, nodes_mapped sh E s -> inv (fun _ => None) s.
  Proof using. intros s [Hf Hm]. split; [exact Hf|]. split; [exact Hm|]. intros c X Q. discriminate. Qed.

  (** ** The loss *)

  Definition loss_gz (n : Z) (Y Z_ : tens) : tens := arg2 (fun i j => / IZR n * (- Y [i; j] / Z_ [i; j]))%R.

  Lemma loss_curve : forall n k Y Z_ c dZ,
    (forall i j, 0 <= i < n -> 0 <= j < k -> (0 < Z_ [i; j])%R) -> moves [n; k] c Z_ dZ ->
    is_derive (fun t => mean_loss n k Y (c t)) 0%R (inner Rsc [n; k] (loss_gz n Y Z_) dZ).
  Proof using.
    intros n k Y Z_ c dZ HZ Mc.
    apply (is_derive_ext (fun t => / IZR n * rsum n (fun i => xent_fn k (fun j => Y [i; j]) (fun j => c t [i; j])))%R).
    { intros t. unfold mean_loss, Rdiv. apply Rmult_comm. }
    rewrite (inner_2 Rsc Rsc_laws).
    replace (sum_over Rsc (zrange n) (fun i => sum_over Rsc (zrange k) (fun j =>
        smul Rsc (loss_gz n Y Z_ [i; j]) (dZ [i; j]))))
      with (/ IZR n * rsum n (fun i => - rsum k (fun j => Y [i; j] * (dZ [i; j] * / Z_ [i; j]))))%R.
    2:{ rewrite <- rsum_scal_l. apply sum_over_ext. intros i Hi. apply in_zrange in Hi.
        replace (/ IZR n * - rsum k (fun j => Y [i; j] * (dZ [i; j] * / Z_ [i; j])))%R
          with ((- / IZR n) * rsum k (fun j => Y [i; j] * (dZ [i; j] * / Z_ [i; j])))%R by ring.
        rewrite <- rsum_scal_l. apply sum_over_ext. intros j Hj. unfold loss_gz, arg2, Rdiv; cbn. ring. }
    apply (is_derive_scal (fun t => rsum n (fun i => xent_fn k (fun j => Y [i; j]) (fun j => c t [i; j])))).
    apply (is_derive_rsum n (fun i t => xent_fn k (fun j => Y [i; j]) (fun j => c t [i; j]))). intros i Hi.
    unfold xent_fn. apply (is_derive_opp (fun t => rsum k (fun j => Y [i; j] * ln (c t [i; j])))%R).
    apply (is_derive_rsum k (fun j t => Y [i; j] * ln (c t [i; j]))%R). intros j Hj. apply is_derive_scal.
    assert (Vi : valid [n; k] [i; j]) by (cbn; lia). destruct (Mc _ Vi) as [E0 D0].
    pose proof (is_derive_comp ln (fun t => c t [i; j]) 0%R (/ Z_ [i; j])%R (dZ [i; j])) as Q. cbv beta in Q. rewrite E0 in Q.
    apply Q; [|exact D0]. apply is_derive_Reals, derivable_pt_lim_ln. apply HZ; auto.
  Qed.

  Lemma loss_calls_ok : forall n k N Y Z_ A s,
    sh (Out N) = Some [n; k] -> sh (GOut N) = Some [n; k] -> sh Labels = Some [n; k] ->
    sh Losses = Some [n] -> sh GLosses = Some [n] -> sh Loss = Some [] -> 1 <= n -> 0 <= k ->
    (forall i j, 0 <= i < n -> 0 <= j < k -> (0 < Z_ [i; j])%R) ->
    inv A s -> A (Out N) = Some Z_ -> A Labels = Some Y -> A GLosses = Some (fun _ => / IZR n)%R ->
    exists s' A', loss_calls dt Rsc ln (div_float Rsc) E N s = Ok tt s' /\ inv A' s' /\
      A' (GOut N) = Some (loss_gz n Y Z_) /\ A' Loss = Some (fun _ => mean_loss n k Y Z_) /\
      only_nodes (fun c => c = Losses \/ c = Loss \/ c = GOut N) E s s' /\
      (forall c, c <> Losses -> c <> Loss -> c <> GOut N -> A' c = A c).
  Proof using OK NN.
    intros n k N Y Z_ A s S1 S2 S3 S4 S5 S6 Hn Hk HZ HI AZ AY AG.
    set (Pr := fun c => c = Losses \/ c = Loss \/ c = GOut N).
    pose proof HI as (If & Im & Ih).
    destruct (inv_step A s (op_xentropy dt Rsc ln 2 (E Losses) (E Labels) (E (Out N))) Losses
      (arg1 (fun i => xent_fn k (fun j => Y [i; j]) (fun j => Z_ [i; j]))) [n] Pr HI S4) as (s1 & E1 & I1 & O1).
    { left; reflexivity. }
    { eapply writes_ext; [reflexivity| |apply (C36_value dt (E Losses) (E Labels) (E (Out N)) [n] k Y Z_ s);
        try (apply sh_dims; assumption)].
      - intros ix Hix. rewrite (sh_dims _ _ S4) in Hix. apply valid_1 in Hix. destruct Hix as (i & -> & _). reflexivity.
      - eapply sh_dims_ok; eauto.
      - apply Ih; auto.
      - apply Ih; auto.
      - apply Im; congruence.
      - eapply sh_disj; eauto. discriminate.
      - eapply sh_disj; eauto. discriminate. }
    pose proof I1 as (If1 & Im1 & Ih1).
    destruct (inv_step _ s1 (op_mean dt Rsc (div_float Rsc) 0 (E Loss) (E Losses)) Loss
      (fun _ => mean_loss n k Y Z_) [] Pr I1 S6) as (s2 & E2 & I2 & O2).
    { right; left; reflexivity. }
    { eapply writes_ext; [reflexivity| |apply (C42_mean_real V dt (E Loss) (E Losses) [] n
        (arg1 (fun i => xent_fn k (fun j => Y [i; j]) (fun j => Z_ [i; j]))) s1);
        try (apply sh_dims; assumption); auto].
      - intros ix Hix. rewrite (sh_dims _ _ S6) in Hix. destruct ix; [reflexivity|destruct Hix].
      - eapply sh_dims_ok; eauto.
      - apply Ih1. apply learn_eq.
      - apply Im1; congruence.
      - eapply sh_disj; eauto. discriminate. }
    pose proof I2 as (If2 & Im2 & Ih2).
    destruct (inv_step _ s2 (xentropy_grad2 dt Rsc (E (GOut N)) (E GLosses) (E Labels) (E (Out N))) (GOut N)
      (loss_gz n Y Z_) [n; k] Pr I2 S2) as (s3 & E3 & I3 & O3).
    { right; right; reflexivity. }
    { apply (xentropy_grad2_writes dt Rsc (E (GOut N)) (E GLosses) (E Labels) (E (Out N)) n k (fun _ => / IZR n)%R Y Z_
        (fun i j => - Y [i; j] / Z_ [i; j])%R); try (apply sh_dims; assumption); try lia.
      - apply Ih2. rewrite !learn_neq by discriminate. exact AG.
      - apply Ih2. rewrite !learn_neq by discriminate. exact AY.
      - apply Ih2. rewrite !learn_neq by discriminate. exact AZ.
      - apply Im2; congruence.
      - eapply sh_disj; eauto. discriminate.
      - left. eapply sh_disj; eauto. discriminate.
      - left. eapply sh_disj; eauto. discriminate.
      - intros i j Hi Hj. apply Rdiv_ok. pose proof (HZ i j Hi Hj). lra. }
    eexists s3, _. unfold loss_calls. rewrite (bind_ok _ _ _ _ _ E1), (bind_ok _ _ _ _ _ E2).
    split; [exact E3|]. split; [exact I3|]. split; [apply learn_eq|].
    split; [rewrite learn_neq by discriminate; apply learn_eq|]. split.
    - eapply only_nodes_trans; [exact O1|]. eapply only_nodes_trans; [exact O2|exact O3].
    - intros c C1 C2 C3. rewrite !learn_neq by auto. reflexivity.
  Qed.

  Lemma within_last : forall net k d0, within k d0 net ->
    sh (Out (k + length net)) = Some (net_out d0 net) /\ sh (GOut (k + length net)) = Some (net_out d0 net).
  Proof using.
    induction net as [|L net IH]; intros k d0 W; cbn [length net_out].
    - rewrite Nat.add_0_r. destruct (net_nodes_first [] k d0). split; apply W; auto.
    - rewrite Nat.add_succ_r. apply (IH (S k)). eapply within_tail; eauto.
  Qed.

  (** The tensors written by a training step. *)
  Definition written (net : list layer) (c : node) : Prop :=
    (exists i, (0 < i <= length net)%nat /\ c = Out i) \/ (exists i, c = GOut i) \/
    (exists i, c = GPar i) \/ (exists i, c = Par i) \/ c = Losses \/ c = Loss.

  Lemma net_step_ok : forall net d0 n k P X Y A s, within 0 d0 net -> net_ok d0 net -> net_out d0 net = [n; k] ->
    sh Labels = Some [n; k] -> sh Losses = Some [n] -> sh GLosses = Some [n] -> sh Loss = Some [] ->
    1 <= n -> 0 <= k ->
    (forall i j, 0 <= i < n -> 0 <= j < k -> (0 < net_fn eps 0 net P X [i; j])%R) ->
    inv A s -> A (Out 0) = Some X -> pars_known 0 net P A -> A Labels = Some Y -> A GLosses = Some (fun _ => / IZR n)%R ->
    exists s' A' GP GX, net_step dt di Rsc exp ln eps (div_float Rsc) E net s = Ok tt s' /\ inv A' s' /\
      A' Loss = Some (fun _ => mean_loss n k Y (net_fn eps 0 net P X)) /\
      pars_known 0 net (fun i => tsub Rsc (P i) (GP i)) A' /\ gpars_known 0 net GP A' /\ A' (GOut 0) = Some GX /\
      A' (Out (length net)) = Some (net_fn eps 0 net P X) /\
      A' (Out 0) = Some X /\ A' Labels = Some Y /\ A' GLosses = Some (fun _ => / IZR n)%R /\
      only_nodes (written net) E s s' /\
      (net_smooth eps 0 net P X -> net_gradient d0 net (fun P X => mean_loss n k Y (net_fn eps 0 net P X)) P X GP GX).
  Proof using OK NN.
    intros net d0 n k P X Y A s W H Eo S3 S4 S5 S6 Hn Hk HZ HI AX AP AY AG.
    destruct (within_last net 0 d0 W) as [S1 S2]. cbn in S1, S2. rewrite Eo in S1, S2.
    destruct (forward_from_ok net 0 d0 P X A s W H HI AX AP) as (s1 & A1 & E1 & I1 & K1 & O1 & U1).
    pose proof (outs_last net 0 P X A1 K1) as L1. cbn in L1.
    destruct (loss_calls_ok n k (length net) Y (net_fn eps 0 net P X) A1 s1 S1 S2 S3 S4 S5 S6 Hn Hk HZ I1 L1)
      as (s2 & A2 & E2 & I2 & G2 & Lo2 & O2 & U2).
    { rewrite U1; auto. discriminate. }
    { rewrite U1; auto. discriminate. }
    assert (K2 : outs_known 0 net P X A2).
    { eapply outs_known_ext; [| |exact K1]; intros i _; apply U2; discriminate. }
    destruct (backward_from_ok net 0 d0 P X _ A2 s2 W H I2 K2 G2) as (s3 & A3 & GP & GX & E3 & I3 & GX3 & GP3 & O3 & U3 & V3).
    assert (U3' : forall c, (forall i, c <> GOut i /\ c <> GPar i) -> A3 c = A2 c) by (intros c Hc; apply U3; intros i _; apply Hc).
    assert (P3 : pars_known 0 net P A3).
    { eapply pars_known_ext; [|eapply outs_pars; exact K2]. intros i _. apply U3'. split; discriminate. }
    destruct (update_from_ok net 0 d0 P GP A3 s3 W H I3 P3 GP3) as (s4 & A4 & E4 & I4 & P4 & O4 & U4).
    assert (U4' : forall c, (forall i, c <> Par i) -> A4 c = A3 c) by (intros c Hc; apply U4; intros i _; apply Hc).
    exists s4, A4, GP, GX. unfold net_step.
    rewrite (bind_ok _ _ _ _ _ E1), (bind_ok _ _ _ _ _ E2), (bind_ok _ _ _ _ _ E3).
    split; [exact E4|]. split; [exact I4|].
    split. { rewrite U4', U3'; auto; try discriminate. split; discriminate. }
    split; [exact P4|].
    split. { eapply gpars_known_ext; [| |exact GP3]; auto. intros i _. apply U4'. discriminate. }
    split. { rewrite U4' by discriminate. exact GX3. }
    split. { rewrite U4', U3', U2; auto; try discriminate. split; discriminate. }
    split. { rewrite U4', U3', U2, U1; auto; try discriminate; [|split; discriminate]. intros i Hi Q; injection Q; lia. }
    split. { rewrite U4', U3', U2, U1; auto; try discriminate. split; discriminate. }
    split. { rewrite U4', U3', U2, U1; auto; try discriminate. split; discriminate. }
    split.
    - eapply only_nodes_trans; [|eapply only_nodes_trans; [|eapply only_nodes_trans]];
        (eapply only_nodes_weaken; [|eassumption]); unfold written.
      + intros c (i & Hi & ->). left. exists i. split; [lia|reflexivity].
      + intros c [->|[->| ->]]; eauto 8.
      + intros c (i & Hi & [->| ->]); eauto 8.
      + intros c (i & Hi & ->). eauto 8.
    - intros Hs DP DX.
      destruct (V3 Hs (fun j => along (P j) (DP j)) (along X DX) DP DX (along_moves _ _ _)) as (dZ & MZ & EZ).
      { intros j ds. apply along_moves. }
      rewrite Eo in MZ, EZ. rewrite <- EZ. apply loss_curve; auto.
  Qed.
End Net.

(** The last layer decides about positivity. *)
Lemma net_fn_app : forall eps net net' k P X,
  net_fn eps k (net ++ net') P X = net_fn eps (k + length net) net' P (net_fn eps k net P X).
Proof.
  induction net as [|L net IH]; intros net' k P X; cbn.
  - rewrite Nat.add_0_r. reflexivity.
  - rewrite IH. rewrite Nat.add_succ_r. reflexivity.
Qed.
