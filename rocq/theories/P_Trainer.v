(** The training of the weights (C52) *)
From Coq Require Import String List Arith Bool Lia Permutation Relations QArith Qcanon Reals.
From Verif Require Import Res Num RealNum Categoric Combs Func FuncProofs GroupProofs FactorProofs FactorApi Special SpecialProofs
  Graph GraphLemmas Clusters Belief Query Gibbs GraphInv EvidInv BeliefInv BigOp Tree Cycle BPStep BPRun GraphSpec Hist P_Graph BeliefSpec Sums Exact BeliefHist Queries
  Parts JointSpec Joint GibbsProofs Train TrainHist Coherent TrainSpec Gradient TrainInv GradientRun Likelihood P_Categoric P_Train P_Gradient CRF CRFHist CRFInv CRFSpec CRFGradient P_CRF P_CRFGradient
  Trainer TrainerSpec TrainerProofs.
Import ListNotations.
Open Scope nat_scope.

Section Training.
  Context {N : num} (OK : num_ok N).
  Notation rst := (rst (N:=N)).
  Notation crf := (crf (N:=N)).
  Notation trainer := (trainer (N:=N)).
  Implicit Types s : rst.

  (** the percentage is 1, or draws at least a combination *)
  Definition enough (floorf : N -> nat) (p : N) (size : nat) : Prop :=
    p = n1 \/ ((n0 < p)%num /\ (p < n1)%num /\ 1 <= floorf (p * nofnat size)%num).
  (** whatever the weights, the factors on two variables are symmetric and the model
      has a possible assignment; there are no cycles *)
  Definition trainable s : Prop :=
    (forall ws, length ws = length (tunable_clusters s) ->
       symmetric (with_weights (r_h s) (tunable_clusters s) ws) (bare s) /\
       positive (weight (with_weights (r_h s) (tunable_clusters s) ws) (bare s)) (bare s)) /\
    (forall v, In v (g_vars (r_g s)) -> tree_around (r_h s) (bare s) v).

  Lemma iterators floorf rand combs (info : train_info (N:=N)) : combs <> [] -> enough floorf (info_percentage info) (length combs) -> forall k,
    exists it, wrapper_get floorf rand (mkTI combs None) combs (info_percentage info) k = Ok it /\
      iter_samples it = Ok (drawn floorf rand combs (info_percentage info) k) /\ drawn floorf rand combs (info_percentage info) k <> [].
  Proof.
    intros NE P k. unfold wrapper_get. destruct P as [->|(P1 & P2 & P3)].
    - rewrite (proj2 (ok_eqb N OK n1 n1) eq_refl). eexists. split. reflexivity. unfold drawn. rewrite (proj2 (ok_eqb N OK n1 n1) eq_refl). auto.
    - assert (X : neqb n1 (info_percentage info) = false). { apply (neqb_false OK). intros X. rewrite <- X, (ok_irr N OK) in P2. discriminate. }
      assert (Y : nltb n1 (info_percentage info) = false). { destruct (nltb n1 (info_percentage info)) eqn:Q; auto. pose proof (ok_trans N OK _ _ _ P2 Q) as Z. rewrite (ok_irr N OK) in Z. discriminate. }
      rewrite X. destruct (iter_drawn floorf rand combs (info_percentage info) k NE X P1 Y) as (it & E1 & E2). exists it. split; auto. split; auto.
      unfold drawn. rewrite X. destruct (floorf _); [lia|]. simpl. discriminate.
  Qed.

  (** C52. The training of a random field, when the tunable factors join pairs of
      variables without evidence. Any trainer gets from the model what it would get from
      a vector of parameters, with the gradient of the mean log-likelihood of the
      combinations drawn for each question: the model ends with the parameters set last,
      and throws exactly when the trainer throws or sets a vector of another size. The
      factors, their groups and the variables are the same as before. Missing: tunable
      factors on one variable (refuted), asymmetric factors, cycles. *)
  Theorem C52_field_partial : forall h top s ws (t : trainer) es floorf rand combs info,
    (forall f, built (h f)) -> rreach h top (steady False) s -> tunables_hidden s -> trainable s -> (forall k, env_ok (es k)) ->
    1 <= info_threads info -> usable_set s combs -> enough floorf (info_percentage info) (length combs) -> get_weights s = Ok ws ->
    let r := ideal_training (length (tunable_clusters s))
               (fun k => log_gradient (r_h s) (bare s) (tunable_clusters s) (drawn floorf rand combs (info_percentage info) k)) t 0 ws in
    exists s', train_field floorf rand es t combs info s = (if snd r then Ret tt s' else Thr s') /\
      get_weights s' = Ok (fst r) /\ (forall f, r_h s' f = with_weights (r_h s) (tunable_clusters s) (fst r) f) /\
      tunable_clusters s' = tunable_clusters s /\ r_const s' = r_const s /\ r_tun s' = r_tun s /\
      g_vars (r_g s') = g_vars (r_g s) /\ g_all (r_g s') = g_all (r_g s) /\ g_pool (r_g s') = Some 1.
  Proof.
    intros h top s ws t es floorf rand combs info Hb R TH [TW TR] E L [NE V] P GW r. pose proof (rreach_full False h top s Hb R) as F.
    destruct (train_field_ok OK s es floorf rand t combs info ws F TH E GW L TW TR V (iterators floorf rand combs info NE P) NE) as (s' & Q1 & Q2 & Q3).
    exists s'. split. exact Q1. splits; auto; try apply Q2. apply (tstate_clusters _ _ _ Q2).
  Qed.

  (** whatever the weights, the factors between hidden variables are symmetric and each
      combination of the training set is possible; there are no cycles *)
  Definition crf_trainable (c : crf) (combs : list (list nat)) : Prop :=
    (forall ws, length ws = length (tunable_clusters (c_r c)) ->
       symmetric (with_weights (factors c) (tunable_clusters (c_r c)) ws) (content c) /\
       forall x, In x combs -> positive (weight (with_weights (factors c) (tunable_clusters (c_r c)) ws) (content c)) (given (content c) x)) /\
    (forall v, BeliefSpec.hidden (content c) v -> tree_around (factors c) (content c) v).

  (** C52. The training of a conditional random field: the same, with the conditional
      log-likelihood. Missing: as in C51. *)
  Theorem C52_crf_partial : forall c b ws (t : trainer) es floorf rand combs info,
    clives b c -> exposed (c_r c) -> crf_trainable c combs -> (forall i k, env_ok (es i k)) -> (forall i, same_positions c (es i)) ->
    1 <= info_threads info -> usable c combs -> enough floorf (info_percentage info) (length combs) -> get_weights (c_r c) = Ok ws ->
    let r := ideal_training (length (tunable_clusters (c_r c)))
               (fun k => cond_gradient (factors c) (content c) (tunable_clusters (c_r c)) (drawn floorf rand combs (info_percentage info) k)) t 0 ws in
    exists s', train_crf floorf rand es (c_pos c) t combs info (c_r c) = (if snd r then Ret tt s' else Thr s') /\
      get_weights s' = Ok (fst r) /\ (forall f, r_h s' f = with_weights (factors c) (tunable_clusters (c_r c)) (fst r) f) /\
      tunable_clusters s' = tunable_clusters (c_r c) /\ r_const s' = r_const (c_r c) /\ r_tun s' = r_tun (c_r c) /\
      g_vars (r_g s') = g_vars (graph_of c) /\ g_all (r_g s') = g_all (graph_of c) /\
      (forall a, g_ev (r_g s') a = None <-> g_ev (graph_of c) a = None) /\ g_pool (r_g s') = Some 1.
  Proof.
    intros c b ws t es floorf rand combs info R EX [TW TR] E SP L [NE V] P GW r. pose proof (clives_full b c R) as [F T EN]. pose proof (clives_creach b c R) as CR.
    apply fresh_weak in F.
    destruct (train_crf_ok OK (c_r c) es (c_pos c) floorf rand t combs info ws F T EN EX E (fun i => same_order c (es i) CR (E i) (SP i)) (creach_some c CR) GW L TW TR V
      (iterators floorf rand combs info NE P) NE) as (s' & Q1 & Q2 & Q3).
    pose proof (cs_frozen _ _ _ Q2) as FZ. exists s'. split. exact Q1. splits; auto; try apply FZ; try apply Q2. apply clusters_frozen; auto.
  Qed.

  (** C52. A percentage out of ]0, 1] is noticed by the first gradient only: it throws,
      and the model has the weights set before *)
  Theorem C52_percentage : forall h top s gradient next ws floorf rand combs info, (forall f, built (h f)) -> rreach h top (steady False) s -> 1 <= info_threads info ->
    info_percentage info = n0 \/ (info_percentage info < n0)%num \/ (n1 < info_percentage info)%num -> length ws = length (tunable_clusters s) ->
    exists s' s'', train_model floorf rand gradient (TGradient next) combs info s = Thr s' /\ get_weights s' = get_weights s /\
      train_model floorf rand gradient (TSet ws (TGradient next)) combs info s = Thr s'' /\ get_weights s'' = Ok ws.
  Proof.
    intros h top s gradient next ws floorf rand combs info Hb R L Q LW. destruct (rreach_full False h top s Hb R) as [C _ EN].
    assert (X : neqb n1 (info_percentage info) = false).
    { apply (neqb_false OK). intros X. rewrite <- X in Q. destruct Q as [Q|[Q|Q]]. pose proof (nlt_0_1 OK) as Z. rewrite Q in Z. rewrite (ok_irr N OK) in Z. discriminate.
      pose proof (ok_trans N OK _ _ _ (nlt_0_1 OK) Q) as Z. rewrite (ok_irr N OK) in Z. discriminate. rewrite (ok_irr N OK) in Q. discriminate. }
    assert (W : forall k, wrapper_get floorf rand (mkTI combs None) combs (info_percentage info) k = Throw).
    { intros k. unfold wrapper_get, iter_ctor. rewrite X. assert (Y : negb (nltb n0 (info_percentage info)) || nltb n1 (info_percentage info) = true); [|rewrite Y; auto].
      apply orb_true_iff. destruct Q as [Q|[Q|Q]]; auto. rewrite Q, (ok_irr N OK). auto. left. apply negb_true_iff. destruct (nltb n0 _) eqn:Z; auto.
      pose proof (ok_trans N OK _ _ _ Q Z) as Z'. rewrite (ok_irr N OK) in Z'. discriminate. }
    assert (RX : neqb (n1 (n:=N)) n1 = true) by (apply (ok_eqb N OK); auto).
    assert (PS : exists s1, on_g (set_pool_size (info_threads info)) s = Ret tt s1 /\ r_h s1 = r_h s /\ r_tuners s1 = r_tuners s /\ rinv s1).
    { unfold on_g, set_pool_size. rewrite EN. destruct (Nat.eqb_spec (info_threads info) 0); [lia|]. destruct (info_threads info =? 1); eexists; (split; [reflexivity|]); cbn [r_h r_tuners set_g]; splits; auto;
      apply step_g; auto; apply C. }
    destruct PS as (s1 & PS & H1 & T1 & I1). assert (C1 : tunable_clusters s1 = tunable_clusters s) by (unfold tunable_clusters; rewrite T1; auto).
    assert (TM : forall t, train_model floorf rand gradient t combs info s =
      match run_trainer gradient (wrapper_get floorf rand (mkTI combs None) combs (info_percentage info)) t 0 s1 with
      | Ret a s => Ret a (set_g s (set_pool (r_g s) (Some 1))) | Thr s => Thr (set_g s (set_pool (r_g s) (Some 1))) | Undef => Undef | NotNum => NotNum | NoStop => NoStop end).
    { intros t. unfold train_model, wrapper_ctor, iter_ctor. rewrite RX. cbn [lift obind]. unfold scoped. rewrite PS. auto. }
    destruct (set_weights_ww s1 ws I1) as (s2 & E2 & _ & _ & _ & _ & _ & _ & G2). rewrite C1; auto.
    eexists. eexists. split. { rewrite TM. cbn [run_trainer]. rewrite W. cbn [lift obind]. reflexivity. } split. { unfold get_weights. cbn [r_h r_tuners set_g]. rewrite H1, T1. auto. }
    split. { rewrite TM. cbn [run_trainer]. rewrite E2. cbn [obind run_trainer]. rewrite W. cbn [lift obind]. reflexivity. } exact G2.
  Qed.

  (** C52. With 0 threads the training throws, and the model is left without its pool:
      any later query, gradient or training is undefined *)
  Theorem C52_zero_threads : forall h top s gradient t floorf rand combs info, (forall f, built (h f)) -> rreach h top (steady False) s -> info_threads info = 0 ->
    exists s', train_model floorf rand gradient t combs info s = Thr s' /\ get_weights s' = get_weights s /\
      forall gradient' t' combs' info', train_model floorf rand gradient' t' combs' info' s' = Undef.
  Proof.
    intros h top s gradient t floorf rand combs info Hb R L. destruct (rreach_full False h top s Hb R) as [C _ EN].
    assert (RX : neqb (n1 (n:=N)) n1 = true) by (apply (ok_eqb N OK); auto).
    eexists. split. { unfold train_model, wrapper_ctor, iter_ctor. rewrite RX. cbn [lift obind]. unfold scoped, on_g, set_pool_size. rewrite EN, L. cbn [Nat.eqb obind]. reflexivity. }
    split. reflexivity. intros. unfold train_model, wrapper_ctor, iter_ctor. rewrite RX. reflexivity.
  Qed.
End Training.
Print Assumptions C52_field_partial.
Print Assumptions C52_crf_partial.
Print Assumptions C52_percentage.
Print Assumptions C52_zero_threads.

Section Objective.
  (** the components of [with_weights] *)
  Section Component.
    Variable F : nat -> func RNum.
    Variable A : spec.
    Variable cs : list (list nat).
    Variable ws : list R.
    Hypothesis ND : NoDup (concat cs).
    Hypothesis LW : length ws = length cs.
    Variable k : nat.
    Variable w : R.
    Variable c : list nat.
    Hypothesis Hw : nth_error ws k = Some w.
    Hypothesis Hc : nth_error cs k = Some c.
    Lemma ft_nodup : NoDup c.
    Proof. pose proof ND as ND'. apply nth_error_split in Hc as (l1 & l2 & Ec & _). rewrite Ec, concat_app in ND'. simpl in ND'. apply NoDup_app_parts in ND' as [_ ND']. apply NoDup_app_parts in ND' as [ND' _]. auto. Qed.
    Lemma ft_in t f v : In f c -> fval (with_weights F cs (lset ws k t) f) v = exp (t * fimg (with_weights F cs ws f) v)%R.
    Proof. intros J. rewrite (with_weights_in F cs ND (lset ws k t) k c t f Hc); auto. rewrite ww_img. reflexivity. eapply lset_eq; eauto. Qed.
    Lemma ft_at f v : In f c -> fval (with_weights F cs ws f) v = exp (w * fimg (with_weights F cs ws f) v)%R.
    Proof. intros J. rewrite ww_img. rewrite (with_weights_in F cs ND ws k c w f Hc Hw J). reflexivity. Qed.
    Lemma ft_out t f v : ~ In f c -> fval (with_weights F cs (lset ws k t) f) v = fval (with_weights F cs ws f) v.
    Proof.
      intros NJ. destruct (in_dec Nat.eq_dec f (concat cs)) as [J|J]; [|rewrite !with_weights_out; auto].
      apply in_concat in J as (c' & Jc & Jf). apply In_nth_error in Jc as (j & Hj). destruct (Nat.eq_dec j k) as [->|NE]. exfalso. apply NJ. congruence.
      assert (B : j < length cs) by (apply nth_error_Some; congruence). destruct (nth_error ws j) as [u|] eqn:Hu; [|apply nth_error_None in Hu; lia].
      rewrite (with_weights_in F cs ND (lset ws k t) j c' u f Hj); auto. rewrite (with_weights_in F cs ND ws j c' u f Hj Hu Jf). auto. rewrite lset_ne; auto.
    Qed.
  End Component.

  (** C52. Over the real numbers: the k-th component of [log_gradient] is the derivative
      of the mean log-likelihood with respect to the k-th weight, at any weights *)
  Theorem C52_objective : forall (F : nat -> func RNum) A cs ws samples k w d,
    NoDup (sp_facs A) -> NoDup (concat cs) -> incl (concat cs) (sp_facs A) -> length ws = length cs -> samples <> [] ->
    (forall x, In x samples -> (0 < weight (with_weights F cs ws) A (TrainSpec.assigned (sp_vars A) x))%R) ->
    (0 < mass (weight (with_weights F cs ws) A) A (fun _ => true))%R ->
    nth_error ws k = Some w -> nth_error (log_gradient F A cs samples ws) k = Some d ->
    derivable_pt_lim (fun t => loglik (with_weights F cs (lset ws k t)) A (sp_vars A) samples) w d.
  Proof.
    intros F A cs ws samples k w d NF ND IN LW NE PS PM Hw Hd. unfold log_gradient in Hd. rewrite nth_error_map in Hd. destruct (nth_error cs k) as [c|] eqn:Hc; [|discriminate]. injection Hd as <-.
    assert (E : (mean (N:=RNum) (sp_vars A) samples (features F c) - expected (weight (with_weights F cs ws) A) A (features F c))%num =
      (mean (N:=RNum) (sp_vars A) samples (features (with_weights F cs ws) c) - expected (weight (with_weights F cs ws) A) A (features (with_weights F cs ws) c))%num).
    { f_equal. apply mean_ext. intros x. rewrite features_ww. auto. apply expected_ext2; auto. intros x. rewrite features_ww. auto. }
    match goal with |- derivable_pt_lim ?g _ _ => refine (eq_ind_r (fun d : R => derivable_pt_lim g w d) _ E) end. apply (derive_loglik (with_weights F cs ws) A c) with (FT := fun t => with_weights F cs (lset ws k t)); auto.
    - eapply ft_nodup; eauto.
    - intros f J. apply IN. apply in_concat. exists c. split; auto. eapply nth_error_In; eauto.
    - intros t f. rewrite !with_weights_vars. auto.
    - intros t f v J. eapply ft_in; eauto.
    - intros t f v _ NJ. eapply ft_out; eauto.
    - intros f v J. eapply ft_at; eauto.
  Qed.

  (** C52. The same for [cond_gradient] and the conditional log-likelihood *)
  Theorem C52_conditional_objective : forall (F : nat -> func RNum) A cs ws samples k w d,
    NoDup (sp_facs A) -> NoDup (concat cs) -> incl (concat cs) (sp_facs A) -> length ws = length cs -> samples <> [] ->
    (forall x, In x samples -> (0 < weight (with_weights F cs ws) A (TrainSpec.assigned (sp_vars A) x))%R /\ (0 < mass (weight (with_weights F cs ws) A) (given A x) (fun _ => true))%R) ->
    nth_error ws k = Some w -> nth_error (cond_gradient F A cs samples ws) k = Some d ->
    derivable_pt_lim (fun t => cond_loglik (with_weights F cs (lset ws k t)) A samples) w d.
  Proof.
    intros F A cs ws samples k w d NF ND IN LW NE PS Hw Hd. unfold cond_gradient in Hd. rewrite nth_error_map in Hd. destruct (nth_error cs k) as [c|] eqn:Hc; [|discriminate]. injection Hd as <-.
    assert (E : (mean (N:=RNum) (sp_vars A) samples (features F c) - mean_expected (with_weights F cs ws) A samples (features F c))%num =
      (mean (N:=RNum) (sp_vars A) samples (features (with_weights F cs ws) c) - mean_expected (with_weights F cs ws) A samples (features (with_weights F cs ws) c))%num).
    { f_equal. apply mean_ext. intros x. rewrite features_ww. auto. unfold mean_expected. f_equal. apply sumL_ext. intros y _. apply expected_ext2; auto. intros x. rewrite features_ww. auto. }
    match goal with |- derivable_pt_lim ?g _ _ => refine (eq_ind_r (fun d : R => derivable_pt_lim g w d) _ E) end. apply (derive_cond (with_weights F cs ws) A c w (fun t => with_weights F cs (lset ws k t)) samples); auto.
    - eapply ft_nodup; eauto.
    - intros f J. apply IN. apply in_concat. exists c. split; auto. eapply nth_error_In; eauto.
    - intros t f. rewrite !with_weights_vars. auto.
    - intros t f v J. eapply ft_in; eauto.
    - intros t f v _ NJ. eapply ft_out; eauto.
    - intros f v J. eapply ft_at; eauto.
  Qed.
End Objective.
Print Assumptions C52_objective.
Print Assumptions C52_conditional_objective.
