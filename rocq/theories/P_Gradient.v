(** The gradient of the weights of a random field (C39) *)
From Coq Require Import String List Arith Bool Lia Permutation Relations QArith Qcanon Reals.
From Verif Require Import Res Num RealNum Categoric Combs Func FuncProofs GroupProofs FactorProofs FactorApi Special SpecialProofs
  Graph GraphLemmas Clusters Belief Query GraphInv EvidInv BeliefInv BigOp Tree Cycle BPStep BPRun GraphSpec Hist P_Graph BeliefSpec Sums Exact BeliefHist Queries
  Parts JointSpec Joint Train TrainHist Coherent TrainSpec Gradient TrainInv GradientRun Likelihood P_Categoric P_Factor Demo TrainDemo P_Train.
Import ListNotations.
Open Scope nat_scope.

Lemma NoDup_disj {T} (l1 l2 : list T) : NoDup (l1 ++ l2) -> forall x, In x l1 -> In x l2 -> False.
Proof. induction l1 as [|a l1 IH]; simpl; intros ND x J J'; auto. inversion ND; subst. destruct J as [<-|J]; eauto. apply H1. apply in_or_app; auto. Qed.

Section Formula.
  Context {N : num} (OK : num_ok N).
  Notation rst := (rst (N:=N)).
  Implicit Types s : rst.

  (** the variables of the model are joined by symmetric factors, without cycles *)
  Definition symmetric_forest s : Prop :=
    symmetric (r_h s) (bare s) /\ forall v, In v (g_vars (r_g s)) -> tree_around (r_h s) (bare s) v.
  (** the combinations are values of all the variables *)
  Definition usable_set s (samples : list (list nat)) : Prop :=
    samples <> [] /\ forall c, In c samples -> valid_comb (map vsize (g_vars (r_g s))) c.

  Lemma scoped_gradient s P e it n samples : full P s -> env_ok e -> 1 <= n -> symmetric_forest s ->
    positive (weight (r_h s) (bare s)) (bare s) -> iter_samples it = Ok samples -> usable_set s samples ->
    exists s', weights_gradient e it n s = Ret (map (fun c => (mean (g_vars (r_g s)) samples (features (r_h s) c) -
                                                     expected (weight (r_h s) (bare s)) (bare s) (features (r_h s) c))%num) (tunable_clusters s)) s' /\
      r_h s' = r_h s /\ tunable_clusters s' = tunable_clusters s /\ g_vars (r_g s') = g_vars (r_g s) /\ g_all (r_g s') = g_all (r_g s) /\
      (forall a, g_ev (r_g s') a = None) /\ full P s' /\ (n0 < mass (weight (r_h s) (bare s)) (bare s) (fun _ => true))%num.
  Proof.
    intros F E L [SY TR] PO IS [NE V]. pose proof F as [C T EN].
    assert (K : forall s1, coh P s1 -> g_pool (r_g s1) <> None -> r_h s1 = r_h s -> r_tuners s1 = r_tuners s -> r_top s1 = r_top s -> g_vars (r_g s1) = g_vars (r_g s) -> g_all (r_g s1) = g_all (r_g s) ->
      exists s', (match rf_gradient e it s1 with
        | Ret a s => Ret a (set_g s (set_pool (r_g s) (Some 1))) | Thr s => Thr (set_g s (set_pool (r_g s) (Some 1))) | Undef => Undef | NotNum => NotNum | NoStop => NoStop end) =
        Ret (map (fun c => (mean (g_vars (r_g s)) samples (features (r_h s) c) - expected (weight (r_h s) (bare s)) (bare s) (features (r_h s) c))%num) (tunable_clusters s)) s' /\
        r_h s' = r_h s /\ tunable_clusters s' = tunable_clusters s /\ g_vars (r_g s') = g_vars (r_g s) /\ g_all (r_g s') = g_all (r_g s) /\ (forall a, g_ev (r_g s') a = None) /\ (n0 < mass (weight (r_h s) (bare s)) (bare s) (fun _ => true))%num).
    { intros s1 C1 P1 E1 E2 E3 E4 E5. assert (EB : bare s1 = bare s) by (unfold bare; congruence). assert (ET : tunable_clusters s1 = tunable_clusters s) by (unfold tunable_clusters; congruence).
      destruct (gradient_ok OK s1 P e it samples) as (s2 & Q1 & Q2 & Q3 & Q4 & Q5 & Q6 & Q7); auto; rewrite ?EB, ?E1, ?E4; auto.
      { intros t b It Ib. rewrite E2 in It. destruct (T t b It Ib) as [B1 B2]. split. lia. rewrite E1. unfold var_at in *. rewrite E4. auto. }
      rewrite Q1. eexists. split. rewrite EB, E1, E4, ET. reflexivity. rewrite EB, E1 in Q7. cbn [r_h r_g set_g].
      split. congruence. split. change (tunable_clusters (set_g s2 (set_pool (r_g s2) (Some 1)))) with (tunable_clusters s2). congruence.
      split. cbn [g_vars set_pool]. congruence. split. cbn [g_all set_pool]. congruence. split; auto. }
    assert (G : exists s', weights_gradient e it n s = Ret (map (fun c => (mean (g_vars (r_g s)) samples (features (r_h s) c) -
                                                     expected (weight (r_h s) (bare s)) (bare s) (features (r_h s) c))%num) (tunable_clusters s)) s' /\
      r_h s' = r_h s /\ tunable_clusters s' = tunable_clusters s /\ g_vars (r_g s') = g_vars (r_g s) /\ g_all (r_g s') = g_all (r_g s) /\ (forall a, g_ev (r_g s') a = None) /\ (n0 < mass (weight (r_h s) (bare s)) (bare s) (fun _ => true))%num).
    { unfold weights_gradient, scoped, on_g, set_pool_size. rewrite EN. destruct (Nat.eqb_spec n 0); [lia|].
      destruct (n =? 1); cbn [obind].
      - assert (Q : set_g s (r_g s) = s) by (destruct s; auto). rewrite Q. apply K; auto. rewrite EN. discriminate.
      - apply K; auto; simpl; try discriminate. apply coh_g; auto. apply step_g; auto. apply C. pose proof (ch_inv _ _ C) as [X Y].
        split. eapply core_same; [| | |exact X]; auto. eapply clus_same; [| | | |exact Y]; auto. exact (ch_clean _ _ C). }
    destruct G as (s' & Q1 & Q2). exists s'. split; auto.
    pose proof (rcall_full P e (RGradient it n) s F I (conj I L) E) as RF. cbn [rcall] in RF. rewrite Q1 in RF. cbn [rmapo obind] in RF.
    destruct Q2 as (Q2 & Q3 & Q4 & Q5 & Q6 & Q7). splits; auto.
  Qed.

  (** C39. The gradient, in a model without cycles whose factors between two
      variables are symmetric: there is a component for each cluster of tunable
      factors, which is the mean on the training set of the sum of the values of the
      factors of the cluster, minus the mean of the same sum under the distribution
      of the model without evidences. The factors, the weights and the variables are
      not changed. Missing: models with asymmetric factors (refuted below), with
      cycles, and histories where the weights are changed while a tunable factor is
      not between two hidden variables (refuted below). *)
  Theorem C39_gradient_formula_partial : forall h top s e it n samples,
    (forall f, built (h f)) -> rreach h top (steady False) s -> env_ok e -> 1 <= n ->
    symmetric_forest s -> positive (weight (r_h s) (bare s)) (bare s) ->
    iter_samples it = Ok samples -> usable_set s samples ->
    exists g s', weights_gradient e it n s = Ret g s' /\ length g = length (tunable_clusters s) /\
      (forall k c, nth_error (tunable_clusters s) k = Some c ->
         nth_error g k = Some (mean (g_vars (r_g s)) samples (features (r_h s) c) - expected (weight (r_h s) (bare s)) (bare s) (features (r_h s) c))%num) /\
      r_h s' = r_h s /\ tunable_clusters s' = tunable_clusters s /\ g_vars (r_g s') = g_vars (r_g s) /\ g_all (r_g s') = g_all (r_g s) /\
      (forall a, g_ev (r_g s') a = None).
  Proof.
    intros h top s e it n samples Hb R E L SF PO IS US. pose proof (rreach_full False h top s Hb R) as F.
    destruct (scoped_gradient s False e it n samples F E L SF PO IS US) as (s' & Q1 & Q2 & Q3 & Q4 & Q5 & Q6 & _).
    eexists. exists s'. split. exact Q1. splits; auto. apply map_length. intros k c Hc. rewrite nth_error_map, Hc. auto.
  Qed.

  (** the objects after [setWeights] *)
  Lemma with_weights_out (F : nat -> func N) cs ws f : ~ In f (concat cs) -> with_weights F cs ws f = F f.
  Proof.
    revert ws. induction cs as [|c cs IH]; intros [|w ws] NI; simpl; auto. simpl in NI. rewrite in_app_iff in NI.
    destruct (existsb (Nat.eqb f) c) eqn:X. exfalso. apply existsb_exists in X as (x & Ix & Ex). apply Nat.eqb_eq in Ex. subst; tauto. apply IH. tauto.
  Qed.
  Lemma with_weights_in (F : nat -> func N) cs : NoDup (concat cs) -> forall ws k c w f, nth_error cs k = Some c -> nth_error ws k = Some w -> In f c ->
    with_weights F cs ws f = with_weight (F f) w.
  Proof.
    induction cs as [|c0 cs IH]; intros ND ws k c w f Hc Hw J; [destruct k; discriminate|]. destruct ws as [|w0 ws]; [destruct k; discriminate|].
    simpl in ND. destruct k as [|k]; simpl in *.
    - injection Hc as ->. injection Hw as ->. assert (X : existsb (Nat.eqb f) c = true) by (apply existsb_exists; exists f; split; auto; apply Nat.eqb_refl). rewrite X. auto.
    - assert (X : existsb (Nat.eqb f) c0 = false).
      { destruct (existsb (Nat.eqb f) c0) eqn:X; auto. exfalso. apply existsb_exists in X as (x & Ix & Ex). apply Nat.eqb_eq in Ex. subst x.
        apply (NoDup_disj _ _ ND f); auto. apply in_concat. exists c. split; auto. eapply nth_error_In; eauto. }
      rewrite X. eapply IH; eauto. apply NoDup_app_parts in ND as [_ ND]. auto.
  Qed.

  (** the factors of the model after a call of [setWeights] are those of
      [with_weights] *)
  Theorem C39_weights_set : forall h top s ws, (forall f, built (h f)) -> rreach h top any s -> length ws = length (tunable_clusters s) ->
    exists s', set_weights ws s = Ret tt s' /\ g_all (r_g s') = g_all (r_g s) /\ forall f, r_h s' f = with_weights (r_h s) (tunable_clusters s) ws f.
  Proof.
    intros h top s ws Hb R L. pose proof (rreach_inv h top any s Hb R) as I.
    assert (L' : length ws = length (r_tuners s)) by (rewrite L; unfold tunable_clusters; apply map_length).
    destruct (set_weights_ok s ws I L') as (h' & E & P1 & P2). eexists. split. exact E. split; auto. intros f. cbn [r_h set_g set_h].
    destruct (in_dec Nat.eq_dec f (concat (tunable_clusters s))) as [J|J].
    - apply in_concat in J as (c & Jc & Jf). apply In_nth_error in Jc as (k & Hc). destruct (nth_error ws k) as [w|] eqn:Hw.
      + rewrite (with_weights_in _ _ (ri_cls _ I) ws k c w f) by auto. rewrite (P1 k c w f); auto.
      + exfalso. apply nth_error_None in Hw. assert (k < length (tunable_clusters s)) by (apply nth_error_Some; congruence). lia.
    - rewrite with_weights_out by auto. auto.
  Qed.
End Formula.
Print Assumptions C39_gradient_formula_partial.
Print Assumptions C39_weights_set.

Section Real.
  Notation rst := (rst (N:=RNum)).
  Implicit Types s : rst.

  Lemma lset_eq {T} (l : list T) k x y : nth_error l k = Some y -> nth_error (lset l k x) k = Some x.
  Proof. revert k; induction l as [|a l IH]; intros [|k] Q; simpl in *; try discriminate; auto. Qed.
  Lemma lset_ne {T} (l : list T) k j x : j <> k -> nth_error (lset l k x) j = nth_error l j.
  Proof. revert k j; induction l as [|a l IH]; intros [|k] [|j] Q; simpl in *; try congruence; auto. Qed.
  Lemma lset_len {T} (l : list T) k x : length (lset l k x) = length l.
  Proof. revert k; induction l as [|a l IH]; intros [|k]; simpl; auto. Qed.
  Lemma with_weights_vars (F : nat -> func RNum) cs ws f : f_vars (with_weights F cs ws f) = f_vars (F f).
  Proof. revert ws. induction cs as [|c cs IH]; intros [|w ws]; simpl; auto. destruct (existsb _ _); auto. Qed.

  (** C39. Over the real numbers, with the exponential function: the k-th component
      of the gradient is the derivative, with respect to the k-th weight, of the mean
      of the logarithm of the probability of the combinations of the training set,
      at the current weights. *)
  Theorem C39_gradient_is_derivative_partial : forall h top s e it n samples ws,
    (forall f, built (h f)) -> rreach h top (steady False) s -> env_ok e -> 1 <= n ->
    symmetric_forest s -> iter_samples it = Ok samples -> usable_set s samples ->
    (forall c, In c samples -> (0 < weight (r_h s) (bare s) (assigned (g_vars (r_g s)) c))%R) ->
    get_weights s = Ok ws ->
    exists g s', weights_gradient e it n s = Ret g s' /\ length g = length ws /\
      forall k w d, nth_error ws k = Some w -> nth_error g k = Some d ->
        derivable_pt_lim (fun t => loglik (with_weights (r_h s) (tunable_clusters s) (lset ws k t)) (bare s) (g_vars (r_g s)) samples) w d.
  Proof.
    intros h top s e it n samples ws Hb R E L SF IS US PS GW. pose proof (rreach_full False h top s Hb R) as F. pose proof (ch_r _ _ (fl_coh _ _ F)) as RI.
    assert (ASG : forall c, In c samples -> In (assigned (g_vars (r_g s)) c) (all_asg (g_vars (r_g s)))).
    { intros c Ic. destruct US as [_ V]. specialize (V c Ic). revert V. unfold assigned, valid_comb. generalize (g_vars (r_g s)) as vs. clear. intros vs. revert c.
      induction vs as [|v vs IH]; intros c V; inversion V; subst; simpl. auto. apply in_flat_map. exists x. split. apply in_seq. lia. apply in_map. auto. }
    assert (AG : forall x, agrees (bare s) x = true). { intros x. unfold agrees. apply forallb_forall. intros v _. reflexivity. }
    assert (PO : positive (weight (r_h s) (bare s)) (bare s)).
    { destruct samples as [|c l] eqn:ES; [exfalso; apply (proj1 US); auto|]. exists (assigned (g_vars (r_g s)) c). split. split; auto. apply ASG; left; auto. apply R_ltb_spec. apply PS. left; auto. }
    destruct (C39_gradient_formula_partial RNum_ok h top s e it n samples Hb R E L SF PO IS US) as (g & s' & Q1 & Q2 & Q3 & _).
    destruct (scoped_gradient RNum_ok s False e it n samples F E L SF PO IS US) as (_ & _ & _ & _ & _ & _ & _ & _ & MP).
    destruct (get_weights_ok s RI) as (ws' & GW' & LW & WW). rewrite GW in GW'. injection GW' as <-.
    exists g, s'. split; auto. split. congruence. intros k w d Hw Hd.
    destruct (nth_error (tunable_clusters s) k) as [c|] eqn:Hc.
    2:{ exfalso. apply nth_error_None in Hc. assert (k < length ws) by (apply nth_error_Some; congruence). lia. }
    rewrite (Q3 k c Hc) in Hd. injection Hd as <-.
    assert (Ic : forall f, In f c -> In f (concat (tunable_clusters s))) by (intros f J; apply in_concat; exists c; split; auto; eapply nth_error_In; eauto).
    assert (DJ : forall j c' f, nth_error (tunable_clusters s) j = Some c' -> In f c -> In f c' -> j = k).
    { intros j c' f Hj J J'. pose proof (ri_cls _ RI) as ND. clear -ND Hj Hc J J'. revert j k Hj Hc. induction (tunable_clusters s) as [|x l IH]; intros [|j] [|k] Hj Hc; simpl in *; try discriminate; auto.
      - injection Hj as ->. exfalso. apply (NoDup_disj _ _ ND f); auto. apply in_concat. exists c. split; auto. eapply nth_error_In; eauto.
      - injection Hc as ->. exfalso. apply (NoDup_disj _ _ ND f); auto. apply in_concat. exists c'. split; auto. eapply nth_error_In; eauto.
      - f_equal. apply IH; auto. apply NoDup_app_parts in ND as [_ ND]. auto. }
    assert (FV : forall f l w, f_exp (r_h s f) = Some w -> fval (with_weight (r_h s f) w) l = fval (r_h s f) l).
    { intros f l v X. unfold fval, transform. rewrite X. auto. }
    apply (derive_loglik (r_h s) (bare s) c) with (FT := fun t => with_weights (r_h s) (tunable_clusters s) (lset ws k t)).
    - apply RI.
    - pose proof (ri_cls _ RI) as ND. apply nth_error_split in Hc as (l1 & l2 & Ec & _). rewrite Ec in ND. rewrite concat_app in ND. simpl in ND.
      apply NoDup_app_parts in ND as [_ ND]. apply NoDup_app_parts in ND as [ND _]. auto.
    - intros f J. simpl. apply (ri_in _ RI). apply in_or_app. right. apply (ri_tun _ RI). auto.
    - intros t f. apply with_weights_vars.
    - intros t f l J. rewrite (with_weights_in _ _ (ri_cls _ RI) (lset ws k t) k c t f); auto. eapply lset_eq; eauto.
    - intros t f l _ NJ. destruct (in_dec Nat.eq_dec f (concat (tunable_clusters s))) as [J|J]; [|rewrite with_weights_out by auto; auto].
      apply in_concat in J as (c' & Jc & Jf). apply In_nth_error in Jc as (j & Hj). destruct (Nat.eq_dec j k) as [->|NE].
      { exfalso. apply NJ. congruence. }
      destruct (nth_error ws j) as [v|] eqn:Hv.
      2:{ exfalso. apply nth_error_None in Hv. assert (j < length (tunable_clusters s)) by (apply nth_error_Some; congruence). lia. }
      rewrite (with_weights_in _ _ (ri_cls _ RI) (lset ws k t) j c' v f); auto. apply FV. apply (WW j c'); auto. rewrite lset_ne; auto.
    - intros f l J. unfold fval, transform. rewrite (WW k c w Hc Hw f J). auto.
    - apply US.
    - auto.
    - apply R_ltb_spec. exact MP.
  Qed.
End Real.
Print Assumptions C39_gradient_is_derivative_partial.
