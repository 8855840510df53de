(** Proofs about the training example. *)
From Coq Require Import ZArith List Bool Lia Reals Lra.
From Coquelicot Require Import Coquelicot.
From Verif Require Import Base BaseFacts Traits Scalar RealScalar SumFacts TensorFacts LinAlg LinAlgFacts ConvFacts
  ConvGradFacts Elem ElemSpec ElemFacts PropsElem Activation ActivationSpec ActivationFacts SoftmaxFacts
  PropsSoftmax Pool Summary PropsSummary Utility PropsUtility Train TrainSpec.
Import ListNotations.
Open Scope Z_scope.
Open Scope model_scope.

(** ** Contents of the variables *)

Lemma var_eqb_spec : forall u v, reflect (u = v) (var_eqb u v).
Proof. intros [] []; cbn; constructor; congruence. Qed.

Lemma delta_sum : forall k c (Y P : Z -> R) j, 0 <= j < k -> (forall l, 0 <= l < k -> P l <> 0%R) ->
  rsum k (fun l => c * (- Y l / P l) * jac Rsc P l j)%R = ((P j * rsum k Y - Y j) * c)%R.
Proof.
  intros k c Y P j Hj HP.
  transitivity (rsum k (fun l => (if j =? l then (- c * Y l) else 0) + c * P j * Y l))%R.
  - apply rsum_ext. intros l Hl. pose proof (HP l Hl). unfold jac; cbn.
    rewrite Z.eqb_sym. destruct (Z.eqb_spec j l) as [<-|]; field; auto.
  - rewrite rsum_plus, rsum_scal_l.
    pose proof (sum_pick Rsc Rsc_laws k j (fun l => - c * Y l)%R) as Q. cbn in Q.
    replace ((0 <=? j) && (j <? k)) with true in Q by lia.
    change (rsum k (fun q => if j =? q then (- c * Y q)%R else 0%R) = (- c * Y j)%R) in Q.
    rewrite Q. ring.
Qed.

Section Inv.
  Context {V T : Type} (dt : dtype V T).

  Definition known := var -> option (list Z -> T).
  Definition learn (A : known) (v : var) (X : list Z -> T) : known :=
    fun u => if var_eqb u v then Some X else A u.

  Definition inv (E : var -> tensor) (A : known) (s : st V) : Prop :=
    fresh_ok s /\ (forall v, mapped s (E v)) /\ forall v X, A v = Some X -> holds dt s (E v) X.

  Lemma only_vars_refl : forall P E (s : st V), only_vars P E s s.
  Proof. intros. split; [lia|auto]. Qed.

  Lemma only_vars_trans : forall P E (s1 s2 s3 : st V),
    only_vars P E s1 s2 -> only_vars P E s2 s3 -> only_vars P E s1 s3.
  Proof. intros P E s1 s2 s3 [N1 F1] [N2 F2]. split; [lia|]. intros p Hp. rewrite F2, F1; auto. Qed.

  Lemma only_vars_weaken : forall (P Q : var -> Prop) E (s s' : st V),
    (forall v, P v -> Q v) -> only_vars P E s s' -> only_vars Q E s s'.
  Proof. intros P Q E s s' H [N F]. split; [lia|]. intros p Hp. apply F. auto. Qed.

  Section Step.
    Context (n d k : Z) (E : var -> tensor) (Hn : 1 <= n) (Hd : 0 <= d) (Hk : 0 <= k) (OK : env_ok n d k E).

    Lemma env_dims_ok : forall v, dims_ok (E v).
    Proof using Hn Hd Hk OK.
      intros v. unfold dims_ok. rewrite (proj1 OK v). destruct v; repeat constructor; lia.
    Qed.

    Lemma env_disj : forall u v, var_eqb u v = false -> disjoint (E u) (E v).
    Proof using OK. intros u v H. apply (proj2 OK). destruct (var_eqb_spec u v); congruence. Qed.

    Lemma inv_step : forall A s m v X (P : var -> Prop),
      inv E A s -> P v -> writes dt m s (E v) X ->
      exists s', m s = Ok tt s' /\ inv E (learn A v X) s' /\ only_vars P E s s'.
    Proof using Hn Hd Hk OK.
      intros A s m v X P (Hf & Hm & HA) Pv (s' & Es & H & O). destruct OK as [_ D].
      exists s'. split; [exact Es|]. split; [split; [|split]|].
      - eapply fresh_ok_only_changes; eauto.
      - intros u. destruct (var_eqb_spec u v) as [->|Ne].
        + eapply holds_mapped; [apply env_dims_ok|exact H].
        + intros p Hp. destruct O as [_ F]. rewrite F; [apply (Hm u); auto|]. intros Q. exact (D u v Ne p Hp Q).
      - intros u Y. unfold learn. destruct (var_eqb_spec u v) as [->|Ne]; intros Q.
        + injection Q as <-. exact H.
        + destruct O as [_ F]. eapply holds_frame_disj; [apply HA; exact Q|exact F|]. apply D; auto.
      - destruct O as [N F]. split; [lia|]. intros p Hp. apply F, Hp, Pv.
    Qed.

    (** The sums over the columns. *)
    Lemma col_sums : forall (sc : scalar T) G s, holds dt s (E G_ZS) G -> mapped s (E G_B) ->
      writes dt (for_ (zrange (nth_dim (E G_ZS) 1)) (fun l =>
        tot <- foldM (zrange (nth_dim (E G_ZS) 0))
                 (fun tot i => g <- at_ dt (E G_ZS) [i; l] ;; ret (sadd sc tot g)) (s0 sc) ;;
        set_ dt (E G_B) [l] tot)) s (E G_B) (arg1 (fun l => sum_over sc (zrange n) (fun i => G [i; l]))).
    Proof using Hn Hd Hk OK.
      intros sc G s HG Hm. pose proof (proj1 OK G_ZS) as Ez. pose proof (proj1 OK G_B) as Eb. cbn in Ez, Eb.
      unfold nth_dim. rewrite Ez. cbn [nth].
      replace (zrange k) with (zrange (size (E G_B))) by (unfold size; rewrite Eb; cbn; f_equal; lia).
      apply writes_loop_flat; [apply env_dims_ok|]. intros o s' Ho N F O.
      assert (Ho' : 0 <= o < k) by (unfold size in Ho; rewrite Eb in Ho; cbn in Ho; lia).
      erewrite bind_ok.
      2:{ apply foldM_pure with (g := fun tot i => sadd sc tot (G [i; o])). intros b a Ha. apply in_zrange in Ha.
          erewrite bind_ok; [reflexivity|]. apply (at_frame dt s s' (E G_ZS) (E G_B) G); auto.
          - apply env_disj; reflexivity.
          - rewrite Ez. cbn. lia. }
      rewrite Eb, (expand_1 k o Ho'). unfold arg1; cbn [nth]. unfold set_.
      rewrite (addr_1 (E G_B) k o Eb). apply store_ok. eapply mapped_daddr; eauto.
    Qed.
  End Step.
End Inv.

Section Step.
  Context {V : Type} (dt : dtype V R).
  Context (n d k : Z) (E : var -> tensor) (Hn : 1 <= n) (Hd : 0 <= d) (Hk : 0 <= k) (OK : env_ok n d k E).

  Lemma train_step_ok : forall e eps X Y W B A s,
    engine_ok Rsc e [n; d; k] -> 
    inv dt E A s -> A XS = Some (arg2 X) -> A Y_S = Some (arg2 Y) -> A W_ = Some (arg2 W) -> A B_ = Some (arg1 B) ->
    A G_LS = Some (fun _ => / IZR n)%R ->
    exists s' A', train_step dt Rsc exp ln eps (div_float Rsc) e E s = Ok tt s' /\
      inv dt E A' s' /\ only_vars (fun v => ~ is_input v) E s s' /\
      A' W_ = Some (arg2 (fst (descend eps n d k X Y (W, B)))) /\
      A' B_ = Some (arg1 (snd (descend eps n d k X Y (W, B)))) /\
      A' L_ = Some (fun _ => slp_loss eps n d k X Y W B) /\
      (forall v, is_input v -> A' v = A v).
  Proof using Hn Hd Hk OK.
    intros e eps X Y W B A s He HI AX AY AW AB AG.
    pose proof (proj1 OK) as Ed.
    set (P := fun v => ~ is_input v).
    assert (He2 : engine_ok Rsc e [d; n; k]).
    { eapply engine_ok_weaken; [exact He|]. rewrite !Forall_cons_iff. tauto. }
    assert (DK := env_dims_ok n d k E Hn Hd Hk OK). assert (DJ := env_disj n d k E OK).
    Ltac vars Ed DK DJ I :=
      lazymatch goal with
      | |- tdims (?F ?v) = tdims (?F ?u) => exact (eq_trans (Ed v) (eq_sym (Ed u)))
      | |- tdims (?F ?v) = _ => exact (Ed v)
      | |- dims_ok _ => apply DK
      | |- disjoint _ _ => apply DJ; reflexivity
      | |- mapped _ _ => apply I
      | |- holds _ _ _ _ => apply (proj2 (proj2 I)); cbn; first [eassumption | reflexivity]
      | |- (_ <= _)%Z => lia
      | |- safe (?F ?u) (?F ?u) => right; repeat split
      | |- safe _ _ => left; apply DJ; reflexivity
      | |- fresh_ok _ => apply I
      | |- engine_ok _ _ _ => eassumption
      | |- ~ is_input _ => unfold is_input; intuition discriminate
      | _ => idtac
      end.
    unfold train_step, slp, slp_grad.
    (* matmul *)
    destruct (inv_step dt n d k E Hn Hd Hk OK A s (op_matmul dt Rsc e (E ZS) (E XS) (E W_)) ZS
      (arg2 (fun i j => rsum d (fun a => X i a * W a j)%R)) P HI) as (s1 & E1 & I1 & O1).
    { unfold P; vars Ed DK DJ I1. }
    { eapply (C26_matmul dt Rsc e _ _ _ n d k (arg2 X) (arg2 W)); vars Ed DK DJ HI. }
    rewrite bind_assoc. rewrite (bind_ok _ _ _ _ _ E1). 
    (* bias *)
    destruct (inv_step dt n d k E Hn Hd Hk OK _ s1 (op_bias dt hw (f_add Rsc) (E ZS) (E ZS) (E B_)) ZS
      (arg2 (fun i j => scores d X W B i j)) P I1) as (s2 & E2 & I2 & O2).
    { unfold P; vars Ed DK DJ I1. }
    { eapply writes_ext; [reflexivity| |eapply (C30_add_bias dt Rsc hw 2 1 (E ZS) (E ZS) (E B_) k
        (arg2 (fun i j => rsum d (fun a => X i a * W a j)%R)) (arg1 B))].
      - intros ix Hix. rewrite Ed in Hix. apply valid_2 in Hix. destruct Hix as (i & j & -> & Hi & Hj). reflexivity.
      - left; auto.
      - apply DK.
      - rewrite Ed; reflexivity.
      - reflexivity.
      - rewrite Ed; reflexivity.
      - vars Ed DK DJ I1.
      - vars Ed DK DJ I1.
      - vars Ed DK DJ I1.
      - vars Ed DK DJ I1.
      - vars Ed DK DJ I1.
      - vars Ed DK DJ I1. }
    rewrite (bind_ok _ _ _ _ _ E2).
    (* softmax *)
    destruct (inv_step dt n d k E Hn Hd Hk OK _ s2 (op_softmax dt Rsc exp 2 eps (E YS) (E ZS)) YS
      (arg2 (fun i j => predict eps d k X W B i j)) P I2) as (s3 & E3 & I3 & O3).
    { unfold P; vars Ed DK DJ I1. }
    { eapply writes_ext; [reflexivity| |eapply (C33_value dt eps (E YS) (E ZS) [n] k
        (arg2 (fun i j => scores d X W B i j))); vars Ed DK DJ I2].
      - intros ix Hix. rewrite Ed in Hix. apply valid_2 in Hix. destruct Hix as (i & j & -> & Hi & Hj). reflexivity.
      }
    rewrite (bind_ok _ _ _ _ _ E3).
    (* cross entropy *)
    destruct (inv_step dt n d k E Hn Hd Hk OK _ s3 (op_xentropy dt Rsc ln 2 (E LS) (E Y_S) (E YS)) LS
      (arg1 (fun i => xent_fn k (Y i) (predict eps d k X W B i))) P I3) as (s4 & E4 & I4 & O4).
    { unfold P; vars Ed DK DJ I1. }
    { eapply writes_ext; [reflexivity| |eapply (C36_value dt (E LS) (E Y_S) (E YS) [n] k (arg2 Y)
        (arg2 (fun i j => predict eps d k X W B i j))); vars Ed DK DJ I3].
      - intros ix Hix. rewrite Ed in Hix. apply valid_1 in Hix. destruct Hix as (i & -> & Hi). reflexivity.
      }
    rewrite (bind_ok _ _ _ _ _ E4).
    (* mean *)
    destruct (inv_step dt n d k E Hn Hd Hk OK _ s4 (op_mean dt Rsc (div_float Rsc) 0 (E L_) (E LS)) L_
      (fun _ => slp_loss eps n d k X Y W B) P I4) as (s5 & E5 & I5 & O5).
    { unfold P; vars Ed DK DJ I1. }
    { eapply writes_ext; [reflexivity| |eapply (C42_mean_real V dt (E L_) (E LS) [] n
        (arg1 (fun i => xent_fn k (Y i) (predict eps d k X W B i)))); vars Ed DK DJ I4].
      - intros ix Hix. rewrite Ed in Hix. destruct ix; [reflexivity|destruct Hix].
      }
    rewrite (bind_ok _ _ _ _ _ E5).
    (* gradient of the cross entropy *)
    destruct (inv_step dt n d k E Hn Hd Hk OK _ s5 (xentropy_grad2 dt Rsc (E G_YS) (E G_LS) (E Y_S) (E YS)) G_YS
      (arg2 (fun i j => / IZR n * (- Y i j / predict eps d k X W B i j)))%R P I5) as (s6 & E6 & I6 & O6).
    { unfold P; vars Ed DK DJ I1. }
    { eapply (xentropy_grad2_writes dt Rsc (E G_YS) (E G_LS) (E Y_S) (E YS) n k (fun _ => / IZR n)%R (arg2 Y)
        (arg2 (fun i j => predict eps d k X W B i j))
        (fun i j => - Y i j / predict eps d k X W B i j)%R); vars Ed DK DJ I5.
      - intros i j Hi Hj. unfold arg2; cbn [nth]. apply Rdiv_ok.
        assert (Q : (0 < predict eps d k X W B i j)%R) by (apply C33_range; auto). lra. }
    rewrite (bind_ok _ _ _ _ _ E6).
    (* gradient of softmax *)
    destruct (inv_step dt n d k E Hn Hd Hk OK _ s6 (softmax_grad2 dt Rsc (E G_ZS) (E G_YS) (E YS) (E ZS)) G_ZS
      (arg2 (slp_delta eps n d k X Y W B)) P I6) as (s7 & E7 & I7 & O7).
    { unfold P; vars Ed DK DJ I1. }
    { eapply writes_ext; [reflexivity| |eapply (softmax_grad2_writes dt Rsc (E G_ZS) (E G_YS) (E YS) (E ZS) n k
        (arg2 (fun i j => / IZR n * (- Y i j / predict eps d k X W B i j)))%R
        (arg2 (fun i j => predict eps d k X W B i j))); vars Ed DK DJ I6].
      intros ix Hix. rewrite Ed in Hix. apply valid_2 in Hix. destruct Hix as (i & j & -> & Hi & Hj).
      unfold arg2; cbn [nth]. unfold slp_delta.
      exact (delta_sum k (/ IZR n) (Y i) (predict eps d k X W B i) j Hj
        (fun l Hl => Rgt_not_eq _ _ (proj2 (C33_range eps k _ l Hl)))). }
    rewrite (bind_ok _ _ _ _ _ E7).
    (* gradients of the parameters *)
    destruct (inv_step dt n d k E Hn Hd Hk OK _ s7 _ G_B (arg1 (slp_gb eps n d k X Y W B)) P I7 ltac:(unfold P; vars Ed DK DJ I7)
      (col_sums dt n d k E Hn Hd Hk OK Rsc (arg2 (slp_delta eps n d k X Y W B)) s7 (proj2 (proj2 I7) G_ZS _ eq_refl) (proj1 (proj2 I7) G_B)))
      as (s8 & E8 & I8 & O8).
    rewrite bind_assoc. rewrite (bind_ok _ _ _ _ _ E8).
    destruct (inv_step dt n d k E Hn Hd Hk OK _ s8 (e_mtm dt Rsc e (E XS) (E G_ZS) (E G_W)) G_W (arg2 (slp_gw eps n d k X Y W B)) P I8)
      as (s9 & E9 & I9 & O9).
    { unfold P; vars Ed DK DJ I1. }
    { eapply (e_mtm_writes dt Rsc e (E XS) (E G_ZS) (E G_W) d n k (arg2 X) (arg2 (slp_delta eps n d k X Y W B)));
        vars Ed DK DJ I8. }
    rewrite (bind_ok _ _ _ _ _ E9).
    (* update *)
    destruct (inv_step dt n d k E Hn Hd Hk OK _ s9 (op_sub dt Rsc (E W_) (E W_) (E G_W)) W_
      (arg2 (fst (descend eps n d k X Y (W, B)))) P I9) as (s10 & E10 & I10 & O10).
    { unfold P; vars Ed DK DJ I1. }
    { eapply writes_ext; [reflexivity| |eapply (C27_sub dt Rsc (E W_) (E W_) (E G_W) (arg2 W) (arg2 (slp_gw eps n d k X Y W B)));
        vars Ed DK DJ I9].
      intros ix Hix. reflexivity. }
    rewrite (bind_ok _ _ _ _ _ E10).
    destruct (inv_step dt n d k E Hn Hd Hk OK _ s10 (op_sub dt Rsc (E B_) (E B_) (E G_B)) B_
      (arg1 (snd (descend eps n d k X Y (W, B)))) P I10) as (s11 & E11 & I11 & O11).
    { unfold P; vars Ed DK DJ I1. }
    { eapply writes_ext; [reflexivity| |eapply (C27_sub dt Rsc (E B_) (E B_) (E G_B) (arg1 B) (arg1 (slp_gb eps n d k X Y W B)));
        vars Ed DK DJ I10].
      intros ix Hix. reflexivity. }
    rewrite E11. eexists _, _. split; [reflexivity|]. split; [exact I11|].
    split; [|repeat split].
    { repeat (eapply only_vars_trans; [eassumption|]). apply only_vars_refl. }
    intros v [->|[->|[->| ->]]]; reflexivity.
  Qed.
End Step.
