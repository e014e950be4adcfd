(** The gradient of the weights of a conditional random field (C51) *)
From Coq Require Import String List Arith Bool Lia Permutation Relations QArith Qcanon Reals Lra.
From Verif Require Import Res Num RealNum Categoric Combs Func FuncProofs GroupProofs FactorProofs FactorApi Special SpecialProofs
  Graph GraphLemmas Clusters Belief Query Gibbs GraphInv EvidInv BeliefInv BigOp Tree Cycle BPStep BPRun GraphSpec Hist P_Graph BeliefSpec Sums Exact BeliefHist Queries
  Parts JointSpec Joint GibbsProofs Train TrainHist Coherent TrainSpec Gradient TrainInv GradientRun Likelihood P_Categoric P_Train P_Gradient CRF CRFHist CRFInv CRFSpec CRFGradient P_CRF.
Import ListNotations.
Open Scope nat_scope.

Section Formula.
  Context {N : num} (OK : num_ok N).
  Notation rst := (rst (N:=N)).
  Notation gst := (gst (N:=N)).
  Notation crf := (crf (N:=N)).
  Add Field c51_field : (ok_field N OK).
  Implicit Types s : rst.
  Implicit Types c : crf.

  (** the variables, the evidences and the factors of the model *)
  Definition content c : spec := spec_of (graph_of c).
  (** the factors of the model, by their names in [content] *)
  Definition factors c : nat -> func N := r_h (c_r c).
  (** the hidden variables are joined by symmetric factors, without cycles *)
  Definition hidden_forest c : Prop :=
    symmetric (factors c) (content c) /\ forall v, BeliefSpec.hidden (content c) v -> tree_around (factors c) (content c) v.
  (** the positions of the observed variables kept by the model since its construction
      are in the order in which the map of the evidences is now visited *)
  Definition same_positions c (es : nat -> env) : Prop :=
    forall k, Forall2 (fun i v => nth_error (g_vars (graph_of c)) i = Some v) (c_pos c) (observed_variables (es k) (graph_of c)).
  (** the combinations are values of all the variables *)
  Definition usable c (samples : list (list nat)) : Prop :=
    samples <> [] /\ forall x, In x samples -> valid_comb (map vsize (g_vars (graph_of c))) x.

  Lemma same_order c es : creach c -> (forall k, env_ok (es k)) -> same_positions c es -> forall k, c_pos c = evidence_order (es k) (graph_of c).
  Proof.
    intros R E SP k. pose proof (creach_inv c R) as CI. pose proof (observed_nth (es k) _ _ (ci_shape _ CI) (E k)) as F. fold (graph_of c) in F. specialize (SP k).
    pose proof (sh_vars _ _ (ci_shape _ CI)) as ND. fold (graph_of c) in ND. revert SP F. generalize (c_pos c) (evidence_order (es k) (graph_of c)) (observed_variables (es k) (graph_of c)).
    intros l l' vs SP. revert l'. induction SP as [|i v l vs Hi SP IH]; intros l' F; inversion F; subst; auto. f_equal; auto. eapply (var_at_inj (graph_of c)); eauto.
  Qed.

  (** The positions kept by a conditional random field, also after other calls, are
      those, in the list of the variables of the source, of the observed variables of
      the source, in the order in which [getObservedVariables] listed them. So they
      are as asked by [same_positions] when the field lists the variables as the source
      does, and the observed ones are visited in the same order. *)
  Lemma observed_listed e (g : gst) v : In v (observed_variables e g) -> In v (g_vars g).
  Proof.
    unfold observed_variables. generalize (e_ord e (gsize g) (keys (gsize g) (g_ev g))). intros l.
    assert (G : forall acc, (forall w, In w acc -> In w (g_vars g)) -> forall w, In w (fold_left (fun acc a => match nth_error (g_vars g) a with Some v => vset_add acc v | None => acc end) l acc) -> In w (g_vars g)).
    { induction l as [|a l IH]; intros acc Q; cbn [fold_left]; auto. apply IH. destruct (nth_error (g_vars g) a) as [x|] eqn:E; auto. intros w J. unfold vset_add in J.
      destruct (vset_mem acc x); auto. apply in_app_iff in J as [J|[<-|[]]]; auto. eapply nth_error_In; eauto. }
    apply G. intros ? [].
  Qed.
  Lemma positions_found (all l : list var) : (forall v, In v l -> In v all) -> Forall2 (fun i v => nth_error all i = Some v) (find_positions all l) l.
  Proof.
    induction l as [|v l IH]; intros K; unfold find_positions; cbn [map]; constructor.
    - destruct (find_pos (var_peqb v) all) as [i|] eqn:E.
      + apply find_pos_some in E as (x & Hx & P & _). apply var_peqb_eq in P. congruence.
      + pose proof (proj1 (find_pos_none _ _) E v (K v (or_introl eq_refl))) as X. assert (var_peqb v v = true) by (apply var_peqb_eq; auto). congruence.
    - apply IH. intros w J. apply K. right; auto.
  Qed.
  Lemma later_positions c c' : later c c' -> c_pos c' = c_pos c.
  Proof. intros L. induction L; auto. Qed.
  Theorem C51_positions : forall h top src e copy c s c', (forall f, built (h f)) -> rreach h top any src -> env_ok e -> crf_ctor e src copy = Ret c s -> later c c' ->
    Forall2 (fun i v => nth_error (g_vars (r_g src)) i = Some v) (c_pos c') (observed_order e (r_g src)) /\
    forall es, g_vars (graph_of c) = g_vars (r_g src) -> (forall k, observed_variables (es k) (graph_of c') = observed_order e (r_g src)) -> same_positions c' es.
  Proof.
    intros h top src e copy c s c' Hb R E Q L. pose proof (rreach_inv h top any src Hb R) as I. pose proof (ri_built _ I) as HB.
    destruct (crf_ctor_coh e src copy c s HB E I Q) as (_ & _ & P).
    assert (F : Forall2 (fun i v => nth_error (g_vars (r_g src)) i = Some v) (c_pos c') (observed_order e (r_g src))).
    { rewrite (later_positions c c' L), P. apply positions_found. intros v J. apply (observed_listed e). eapply Permutation_in; [|exact J]. apply permute_perm. apply (proj1 E). }
    split; auto. intros es V O k. rewrite O. pose proof (C50_immutable c c' (CR_field h top src e copy c s Hb R E Q) L) as (V' & _). rewrite V', V. exact F.
  Qed.

  Definition gradient (es : nat -> env) (it : titer) (n : nat) c : out rst (list N) := scoped n (crf_gradient es (c_pos c) it) (c_r c).

  Lemma scoped_crf c b es it n samples : clives b c -> (forall k, env_ok (es k)) -> same_positions c es -> 1 <= n -> hidden_forest c ->
    iter_samples it = Ok samples -> usable c samples -> (forall x, In x samples -> positive (weight (factors c) (content c)) (given (content c) x)) ->
    exists s', gradient es it n c = Ret (map (fun l => (mean (g_vars (graph_of c)) samples (features (factors c) l) - mean_expected (factors c) (content c) samples (features (factors c) l))%num) (tunable_clusters (c_r c))) s' /\
      r_h s' = factors c /\ frozen (c_r c) s' /\
      (forall x, In x samples -> (n0 < mass (weight (factors c) (given (content c) x)) (given (content c) x) (fun _ => true))%num).
  Proof.
    intros R E SP L [SY TR] IS [NE V] PO. pose proof (clives_full b c R) as [F T EN]. pose proof (clives_creach b c R) as CR. pose proof (same_order c es CR E SP) as SO.
    unfold gradient, content, factors, graph_of in *. set (s := c_r c) in *. apply fresh_weak in F.
    pose proof (creach_some c CR) as (a0 & O0). fold s in O0.
    assert (K : forall s1, weak s1 -> g_pool (r_g s1) <> None -> r_h s1 = r_h s -> frozen s s1 -> (forall a, g_ev (r_g s1) a = g_ev (r_g s) a) -> spec_of (r_g s1) = spec_of (r_g s) ->
      exists s', (match crf_gradient es (c_pos c) it s1 with
        | Ret a s => Ret a (set_g s (set_pool (r_g s) (Some 1))) | Thr s => Thr (set_g s (set_pool (r_g s) (Some 1))) | Undef => Undef | NotNum => NotNum | NoStop => NoStop end) =
        Ret (map (fun l => (mean (g_vars (r_g s)) samples (features (r_h s) l) - mean_expected (r_h s) (spec_of (r_g s)) samples (features (r_h s) l))%num) (tunable_clusters s)) s' /\
        r_h s' = r_h s /\ frozen s s' /\ (forall x, In x samples -> (n0 < mass (weight (r_h s) (given (spec_of (r_g s)) x)) (given (spec_of (r_g s)) x) (fun _ => true))%num)).
    { intros s1 W1 P1 E1 F1 EV1 S1. pose proof (fz_vars _ _ F1) as V1. assert (T1 : tunable_clusters s1 = tunable_clusters s) by (unfold tunable_clusters; rewrite (fz_tuners _ _ F1); auto).
      destruct (crf_gradient_ok OK s1 es (c_pos c) it samples (spec_of (r_g s)) W1) as (s2 & Q1 & Q2 & Q3 & Q4); auto; try rewrite E1; auto.
      - eapply ctinv_frozen; eauto.
      - intros k. rewrite (SO k). unfold evidence_order. rewrite (keys_same (r_g s) (r_g s1) V1) by (intros a; rewrite EV1; tauto). unfold gsize. rewrite V1. auto.
      - exists a0. rewrite EV1. auto.
      - rewrite V1. auto.
      - rewrite Q1, E1, V1, T1. eexists. split. reflexivity. rewrite E1 in *. split; auto. split; auto.
        eapply frozen_trans; [exact F1|]. destruct Q3; constructor; auto. }
    unfold scoped, on_g, set_pool_size. rewrite EN. destruct (Nat.eqb_spec n 0); [lia|].
    destruct (n =? 1); cbn [obind].
    - assert (Q : set_g s (r_g s) = s) by (destruct s; auto). rewrite Q. apply K; auto. rewrite EN. discriminate. apply frozen_refl.
    - apply K; auto; simpl; try discriminate. apply weak_g; auto. constructor; auto. intros a. tauto.
  Qed.

  (** C51. The gradient of a conditional random field whose hidden variables are joined
      by symmetric factors without cycles, after any history of calls allowed by
      [clives]: there is a component for each cluster of tunable factors, which is the
      mean on the training set of the sum of the values of the factors of the cluster,
      minus the mean, on the training set, of the mean of the same sum under the
      distribution of the model given the values of the observed variables in the
      combination. The factors, the weights, the variables and which variables are
      observed are not changed. Missing: positions in another order (refuted), tunable
      factors on one hidden variable without observed neighbours when the weights are
      changed (refuted), asymmetric factors and cycles between hidden variables. *)
  Theorem C51_gradient_formula_partial : forall c b es it n samples, clives b c -> (forall k, env_ok (es k)) -> same_positions c es -> 1 <= n -> hidden_forest c ->
    iter_samples it = Ok samples -> usable c samples -> (forall x, In x samples -> positive (weight (factors c) (content c)) (given (content c) x)) ->
    exists g s', gradient es it n c = Ret g s' /\ length g = length (tunable_clusters (c_r c)) /\
      (forall k l, nth_error (tunable_clusters (c_r c)) k = Some l ->
         nth_error g k = Some (mean (g_vars (graph_of c)) samples (features (factors c) l) - mean_expected (factors c) (content c) samples (features (factors c) l))%num) /\
      r_h s' = factors c /\ tunable_clusters s' = tunable_clusters (c_r c) /\ g_vars (r_g s') = g_vars (graph_of c) /\ g_all (r_g s') = g_all (graph_of c) /\
      (forall a, g_ev (r_g s') a = None <-> g_ev (graph_of c) a = None).
  Proof.
    intros c b es it n samples R E SP L HF IS US PO. destruct (scoped_crf c b es it n samples R E SP L HF IS US PO) as (s' & Q1 & Q2 & Q3 & _).
    eexists. exists s'. split. exact Q1. split. apply map_length. split. { intros k l Hl. rewrite nth_error_map, Hl. auto. }
    split; auto. split. unfold tunable_clusters. rewrite (fz_tuners _ _ Q3). auto. split. apply Q3. split. apply Q3. apply Q3.
  Qed.

  (** the factors of the model after a call of [setWeights] are those of
      [with_weights] *)
  Theorem C51_weights_set : forall c ws, creach c -> length ws = length (tunable_clusters (c_r c)) ->
    exists s', set_weights ws (c_r c) = Ret tt s' /\ g_all (r_g s') = g_all (graph_of c) /\ forall f, r_h s' f = with_weights (factors c) (tunable_clusters (c_r c)) ws f.
  Proof.
    intros c ws R L. pose proof (ci_r _ (creach_inv c R)) as I. unfold factors, graph_of. set (s := c_r c) in *.
    assert (L' : length ws = length (r_tuners s)) by (rewrite L; unfold tunable_clusters; apply map_length).
    destruct (set_weights_ok s ws I L') as (h' & E & P1 & P2). eexists. split. exact E. split; auto. intros f. cbn [r_h set_g set_h].
    destruct (in_dec Nat.eq_dec f (concat (tunable_clusters s))) as [J|J].
    - apply in_concat in J as (l & Jc & Jf). apply In_nth_error in Jc as (k & Hc). destruct (nth_error ws k) as [w|] eqn:Hw.
      + rewrite (with_weights_in _ _ (ri_cls _ I) ws k l w f) by auto. rewrite (P1 k l w f); auto.
      + exfalso. apply nth_error_None in Hw. assert (k < length (tunable_clusters s)) by (apply nth_error_Some; congruence). lia.
    - rewrite with_weights_out by auto. auto.
  Qed.

  (** a combination is possible given its own values *)
  Lemma given_possible c x : creach c -> valid_comb (map vsize (g_vars (graph_of c))) x ->
    In (TrainSpec.assigned (g_vars (graph_of c)) x) (all_asg (g_vars (graph_of c))) /\ agrees (given (content c) x) (TrainSpec.assigned (g_vars (graph_of c)) x) = true.
  Proof.
    intros R V. pose proof (sh_vars _ _ (ci_shape _ (creach_inv c R))) as ND. fold (graph_of c) in ND.
    assert (LC : length x = length (g_vars (graph_of c))). { clear -V. unfold valid_comb in V. remember (map vsize (g_vars (graph_of c))) as l eqn:El. rewrite <- (map_length vsize), <- El. symmetry. clear El. induction V; simpl; congruence. }
    split.
    - revert V. unfold TrainSpec.assigned, valid_comb. generalize (g_vars (graph_of c)) as vs. clear. intros vs. revert x.
      induction vs as [|v vs IH]; intros x V; inversion V; subst; simpl. auto. apply in_flat_map. exists x0. split. apply in_seq. lia. apply in_map. auto.
    - unfold agrees. apply forallb_forall. intros v J. change (sp_vars (given (content c) x)) with (g_vars (graph_of c)) in J. apply In_nth_error in J as (a & Ha).
      unfold sp_evidence. change (vname v, vsize v) with (vkey v). rewrite (given_ev (content c) x a v); auto. destruct (sp_ev (content c) (vkey v)); auto.
      destruct (nth_error x a) as [k|] eqn:Hk; auto. unfold TrainSpec.assigned. rewrite (val_combine _ (NoDup_map_inv _ _ ND) x a v k); auto. apply Nat.eqb_refl.
  Qed.
End Formula.
Print Assumptions C51_positions.
Print Assumptions C51_gradient_formula_partial.
Print Assumptions C51_weights_set.

Section Real.
  Notation rst := (rst (N:=RNum)).
  Notation crf := (crf (N:=RNum)).
  Implicit Types c : crf.
  Ltac rring := match goal with |- @eq _ ?a ?b => change (@eq R a b) end; ring.

  Lemma derive_cond (F : nat -> func RNum) (A : spec) (l : list nat) w0 (FT : R -> nat -> func RNum) samples :
    NoDup (sp_facs A) -> NoDup l -> (forall f, In f l -> In f (sp_facs A)) -> (forall t f, f_vars (FT t f) = f_vars (F f)) ->
    (forall t f v, In f l -> fval (FT t f) v = exp (t * fimg (F f) v)%R) -> (forall t f v, In f (sp_facs A) -> ~ In f l -> fval (FT t f) v = fval (F f) v) ->
    (forall f v, In f l -> fval (F f) v = exp (w0 * fimg (F f) v)%R) -> samples <> [] ->
    (forall x, In x samples -> (0 < weight F A (TrainSpec.assigned (sp_vars A) x))%R /\ (0 < mass (weight F A) (given A x) (fun _ => true))%R) ->
    derivable_pt_lim (fun t => cond_loglik (FT t) A samples) w0 (mean (N:=RNum) (sp_vars A) samples (features F l) - mean_expected F A samples (features F l))%R.
  Proof.
    intros ND NL IL HV HI HO H0 NE PS.
    assert (NZ : nofnat (N:=RNum) (length samples) <> 0%R).
    { apply (nlt_neq' RNum_ok). apply (nofnat_pos RNum_ok). destruct samples; simpl; [congruence|lia]. }
    unfold cond_loglik, mean, mean_expected. set (n := nofnat (N:=RNum) (length samples)) in *.
    set (d := fun x => (features F l (TrainSpec.assigned (sp_vars A) x) - expected (weight F (given A x)) (given A x) (features F l))%R).
    assert (SE : (sumL (N:=RNum) (fun x => features F l (TrainSpec.assigned (sp_vars A) x)) samples / n - sumL (N:=RNum) (fun x => expected (weight F (given A x)) (given A x) (features F l)) samples / n)%R =
      (/ n * sumL (N:=RNum) d samples)%R).
    { assert (S : sumL (N:=RNum) d samples = (sumL (N:=RNum) (fun x => features F l (TrainSpec.assigned (sp_vars A) x)) samples - sumL (N:=RNum) (fun x => expected (weight F (given A x)) (given A x) (features F l)) samples)%R).
      { clear. induction samples as [|x r IH]. unfold sumL. simpl. rring. rewrite !Rsum_cons, IH. unfold d. rring. }
      rewrite S. field. auto. }
    change (nsub (n:=RNum)) with Rminus. change (ndiv (n:=RNum)) with Rdiv. rewrite SE.
    assert (K : forall u : R, (u / n = / n * u)%R) by (intros; unfold Rdiv; ring).
    apply derivable_pt_lim_ext with (f := fun t => (/ n * sumL (N:=RNum) (fun x => ln (weight (FT t) A (TrainSpec.assigned (sp_vars A) x) / mass (weight (FT t) A) (given A x) (fun _ => true))%R) samples)%R).
    { intros t. rewrite <- K. auto. }
    apply (derivable_pt_lim_scal (fun t => sumL (N:=RNum) (fun x => ln (weight (FT t) A (TrainSpec.assigned (sp_vars A) x) / mass (weight (FT t) A) (given A x) (fun _ => true))%R) samples)).
    apply (derive_sum (fun x t => ln (weight (FT t) A (TrainSpec.assigned (sp_vars A) x) / mass (weight (FT t) A) (given A x) (fun _ => true))%R)). intros x J.
    destruct (PS x J) as [P1 P2]. unfold d. exact (derive_log F (given A x) l ND NL IL w0 FT HV HI HO H0 (TrainSpec.assigned (sp_vars A) x) P1 P2).
  Qed.

  (** C51. Over the real numbers, with the exponential function: the k-th component of
      the gradient is the derivative, with respect to the k-th weight, of the mean of
      the logarithm of the probability of the combinations of the training set given
      the values of the observed variables in them, at the current weights. *)
  Theorem C51_gradient_is_derivative_partial : forall c b es it n samples ws, clives b c -> (forall k, env_ok (es k)) -> same_positions c es -> 1 <= n -> hidden_forest c ->
    iter_samples it = Ok samples -> usable c samples ->
    (forall x, In x samples -> (0 < weight (factors c) (content c) (TrainSpec.assigned (g_vars (graph_of c)) x))%R) ->
    get_weights (c_r c) = Ok ws ->
    exists g s', gradient es it n c = Ret g s' /\ length g = length ws /\
      forall k w d, nth_error ws k = Some w -> nth_error g k = Some d ->
        derivable_pt_lim (fun t => cond_loglik (with_weights (factors c) (tunable_clusters (c_r c)) (lset ws k t)) (content c) samples) w d.
  Proof.
    intros c b es it n samples ws R E SP L HF IS US PS GW. pose proof (clives_creach b c R) as CR. pose proof (ci_r _ (creach_inv c CR)) as RI.
    assert (PO : forall x, In x samples -> positive (weight (factors c) (content c)) (given (content c) x)).
    { intros x J. destruct (given_possible c x CR) as [G1 G2]. apply US; auto. exists (TrainSpec.assigned (g_vars (graph_of c)) x). split. split; auto. apply R_ltb_spec. auto. }
    destruct (scoped_crf RNum_ok c b es it n samples R E SP L HF IS US PO) as (s' & Q1 & Q2 & Q3 & MP).
    destruct (get_weights_ok (c_r c) RI) as (ws' & GW' & LW & WW). rewrite GW in GW'. injection GW' as <-.
    eexists. exists s'. split. exact Q1. split. { rewrite map_length. congruence. } intros k w d Hw Hd.
    set (s := c_r c) in *. unfold factors in *. fold s in RI. fold s in PS, PO, MP.
    rewrite nth_error_map in Hd. destruct (nth_error (tunable_clusters s) k) as [l|] eqn:Hc; [|discriminate]. injection Hd as <-.
    assert (Ic : forall f, In f l -> In f (concat (tunable_clusters s))) by (intros f J; apply in_concat; exists l; split; auto; eapply nth_error_In; eauto).
    assert (FV : forall f v w, f_exp (r_h s f) = Some w -> fval (with_weight (r_h s f) w) v = fval (r_h s f) v).
    { intros f v u X. unfold fval, transform. rewrite X. auto. }
    apply (derive_cond (r_h s) (content c) l w (fun t => with_weights (r_h s) (tunable_clusters s) (lset ws k t)) samples).
    - apply RI.
    - pose proof (ri_cls _ RI) as ND. apply nth_error_split in Hc as (l1 & l2 & Ec & _). rewrite Ec in ND. rewrite concat_app in ND. simpl in ND.
      apply NoDup_app_parts in ND as [_ ND]. apply NoDup_app_parts in ND as [ND _]. auto.
    - intros f J. simpl. apply (ri_in _ RI). apply in_or_app. right. apply (ri_tun _ RI). auto.
    - intros t f. apply with_weights_vars.
    - intros t f v J. rewrite (with_weights_in _ _ (ri_cls _ RI) (lset ws k t) k l t f); auto. eapply lset_eq; eauto.
    - intros t f v _ NJ. destruct (in_dec Nat.eq_dec f (concat (tunable_clusters s))) as [J|J]; [|rewrite with_weights_out by auto; auto].
      apply in_concat in J as (l' & Jc & Jf). apply In_nth_error in Jc as (j & Hj). destruct (Nat.eq_dec j k) as [->|NE].
      { exfalso. apply NJ. congruence. }
      destruct (nth_error ws j) as [u|] eqn:Hv.
      2:{ exfalso. apply nth_error_None in Hv. assert (j < length (tunable_clusters s)) by (apply nth_error_Some; congruence). lia. }
      rewrite (with_weights_in _ _ (ri_cls _ RI) (lset ws k t) j l' u f); auto. apply FV. apply (WW j l'); auto. rewrite lset_ne; auto.
    - intros f v J. unfold fval, transform. rewrite (WW k l w Hc Hw f J). auto.
    - apply US.
    - intros x J. split. apply PS; auto. apply R_ltb_spec. apply MP; auto.
  Qed.
End Real.
Print Assumptions C51_gradient_is_derivative_partial.
