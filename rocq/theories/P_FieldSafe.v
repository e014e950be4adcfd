(** Property C54, for random fields: no call of the API of a random field goes
    through undefined behaviour, whatever the values of the factors, the weights
    and the samples in the range of the variables. The conditions are in
    FieldSafeSpec.v ([rsafe]). *)
From Coq Require Import String List Arith Bool Lia Permutation Relations QArith Qcanon.
From Verif Require Import Res Num Categoric Combs Func FuncProofs GroupProofs FactorProofs FactorApi Special SpecialProofs
  Graph GraphLemmas Clusters Belief Query GraphInv EvidInv BeliefInv BigOp Tree Cycle BPStep BPRun GraphSpec Hist P_Graph BeliefSpec Sums Exact BeliefHist Queries
  Rebuild P_Belief Parts JointSpec Joint P_Joint SafeSpec Safe P_Safe Train TrainHist Coherent TrainSpec Gradient TrainInv GradientRun P_Categoric P_Factor Demo BeliefDemo TrainDemo P_Train
  P_Gradient P_GradientDemo FieldHist P_Field FieldSafeSpec FieldSafe.
Import ListNotations.
Open Scope nat_scope.

Section P.
  Context {N : num} (OK : num_ok N).
  Notation rst := (rst (N:=N)).
  Implicit Types s : rst.

  (** for all histories, iteration orders, schedules and calls *)
  Theorem C54_field_no_undefined_behaviour_partial : forall h top s e op, (forall f, built (h f)) -> rreach h top rsafe s ->
    rok op s -> rsafe s op -> env_ok e -> rcall e op s <> Undef.
  Proof. intros h top s e op Hb R Hop G E. apply (rreach_defined h top s e op Hb R Hop G E). Qed.
  (** in an arithmetic that goes on after 0/0 no call stops there *)
  Theorem C54_field_numbers_partial : (forall x : N, ndz x = false) -> forall h top s e op, (forall f, built (h f)) -> rreach h top rsafe s ->
    rok op s -> rsafe s op -> env_ok e -> rcall e op s <> Undef /\ rcall e op s <> NotNum.
  Proof.
    intros Z h top s e op Hb R Hop G E. destruct (rreach_defined h top s e op Hb R Hop G E) as [Q1 Q2]. split; auto.
    intros Q. destruct (Q2 Q) as [x X]. rewrite Z in X. discriminate.
  Qed.

  (** with one weight for each cluster of tunable factors, [setWeights] returns *)
  Theorem C54_field_weights_partial : forall h top s ws, (forall f, built (h f)) -> rreach h top rsafe s -> length ws = length (tunable_clusters s) ->
    exists s', set_weights ws s = Ret tt s'.
  Proof.
    intros h top s ws Hb R L. destruct (rreach_fin h top s Hb R) as [F A].
    unfold set_weights. unfold tunable_clusters in L. rewrite map_length in L. rewrite L, Nat.eqb_refl.
    assert (G : forall l t, (forall p, In p l -> forall b, In b (bases (fst p)) -> f_exp (r_h t (bt_fac b)) <> None) ->
      exists t', ofold (fun p s => tuner_set_weight (fst p) (snd p) s) l t = Ret tt t').
    { induction l as [|p l IH]; intros t Hl. exists t. auto. simpl. unfold tuner_set_weight at 1.
      destruct (weight_fold t (snd p) (bases (fst p))) as (t1 & -> & _ & _ & M). { apply Hl. simpl; auto. }
      cbn [obind]. apply IH. intros x J b Jb. apply M. apply (Hl x); simpl; auto. }
    destruct (G (combine (r_tuners s) ws) s) as (t & ->). { intros [x w] J b Jb. eapply tuners_exp; eauto. apply F. eapply in_combine_l; eauto. }
    cbn [obind]. eauto.
  Qed.
End P.

(** {1 Examples} *)
Section Check.
  Notation rst := (rst (N:=QcNum)).
  Notation rop := (rop (N:=QcNum)).
  Definition in_rangeb (s : rst) (it : titer) : bool :=
    match iter_samples it with
    | Ok samples => forallb (fun c => (length c =? length (g_vars (r_g s))) && forallb (fun p => fst p <? vsize (snd p)) (combine c (g_vars (r_g s)))) samples
    | _ => false
    end.
  Lemma range_check c (vs : list var) : (length c =? length vs) && forallb (fun p => fst p <? vsize (snd p)) (combine c vs) = true -> valid_comb (map vsize vs) c.
  Proof.
    revert vs. induction c as [|x c IH]; intros [|v vs] Q; try discriminate Q. constructor.
    apply andb_true_iff in Q as [Q1 Q2]. simpl in Q1, Q2. apply andb_true_iff in Q2 as [Q2 Q3]. apply Nat.ltb_lt in Q2.
    constructor; auto. apply IH. rewrite Q1, Q3. auto.
  Qed.
  Lemma in_rangeb_ok s it : in_rangeb s it = true -> in_range s it.
  Proof.
    unfold in_rangeb. destruct (iter_samples it) as [samples| | | |] eqn:E; try discriminate. intros Q. exists samples. split; auto.
    rewrite forallb_forall in Q. intros c J. apply range_check. auto.
  Qed.
  Definition rsafeb (s : rst) (op : rop) : bool :=
    match op with
    | RConst _ | RTun None _ | RTun _ None => true
    | RTun (Some f) (Some _) => on_hiddenb s f
    | RWeights _ | ROnes => tunables_hiddenb s
    | RGradient it n => (1 <=? n) && balancedb (r_h s) (without_evidences s) && in_rangeb s it
    | RGraph op => safeb (r_h s) (spec_of (r_g s)) op
    | _ => false
    end.
  Lemma rsafeb_ok s op : rsafeb s op = true -> rsafe s op.
  Proof.
    destruct op as [f|f|f|cp l|[f|] [sh|]|f sh|cp l|cp cs|ws| |it n|op]; cbn [rsafeb]; intros Q; try discriminate Q; split; cbn [careful]; auto.
    - apply on_hiddenb_ok; auto.
    - apply tunables_hiddenb_ok; auto.
    - apply tunables_hiddenb_ok; auto.
    - apply andb_true_iff in Q as [Q Q3]. apply andb_true_iff in Q as [Q1 Q2]. apply Nat.leb_le in Q1. splits; auto. apply balancedb_ok; auto. apply in_rangeb_ok; auto.
    - apply safeb_ok in Q as (Q1 & Q2 & _). auto.
    - apply safeb_ok; auto.
  Qed.
  Fixpoint rsafely (ops : list rop) (s : rst) : bool :=
    match ops with
    | [] => true
    | op :: r => rokb op s && rsafeb s op && rdone (rcall env_id op s) && rsafely r (rstep op s)
    end.
  Lemma rruns_safely h top ops : forall s, rreach h top rsafe s -> rsafely ops s = true -> rreach h top rsafe (rruns s ops).
  Proof.
    induction ops as [|op ops IH]; intros s R SA; auto.
    cbn [rsafely] in SA. apply andb_true_iff in SA as [SA SB]. apply andb_true_iff in SA as [SA S2]. apply andb_true_iff in SA as [S1 S3].
    apply rokb_ok in S1. apply rsafeb_ok in S3. change (rreach h top rsafe (rruns (rstep op s) ops)). apply IH; auto.
    unfold rstep. destruct (rcall env_id op s) eqn:Q; try discriminate S2; simpl.
    - eapply RR_ret; eauto. apply env_id_ok.
    - eapply RR_thr; eauto. apply env_id_ok.
  Qed.
End Check.

(** A - C - D - E as in [field_tale], with exceptions (a factor inserted twice, a
    wrong number of weights, an unknown name), evidences, changes of the weights,
    gradients with one or several threads *)
Definition rsafe_tale : list (rop (N:=QcNum)) :=
  [RConst (Some 2); RTun (Some 0) None; RConst (Some 4); RTun (Some 0) None; RTun (Some 1) (Some [exC; exA]); RGraph (OMarginal exC 1); RWeights [q 2 1; q 1 1]; RWeights [q 2 1];
   RGradient (mkTI [[0; 1; 1; 0]; [1; 1; 0; 0]] None) 2; RGraph (OMap exD 1); ROnes; RGraph (OSet exE 1); RGraph (OMarginalName "nobody" 1); RGraph (OMarginal exA 2)].
Notation rsafe_state := (rruns (r_empty gH 6) rsafe_tale).
Example rsafe_reach : rreach gH 6 rsafe rsafe_state.
Proof. apply rruns_safely. constructor. vm_compute. reflexivity. Qed.
Example rsafe_next : rok (RGradient grad_set 3) rsafe_state /\ rsafe rsafe_state (RGradient grad_set 3).
Proof. split. exact I. apply rsafeb_ok. vm_compute. reflexivity. Qed.
Example rsafe_next_weights : length [q 7 1] = length (tunable_clusters rsafe_state).
Proof. vm_compute. reflexivity. Qed.

(** samples that do not cover the variables, or that are out of their range, give
    accesses out of bounds: nothing compares the training set with the model *)
Definition is_undef {S A} (o : out S A) : bool := match o with Undef => true | _ => false end.
Lemma is_undef_ok {S A} (o : out S A) : is_undef o = true -> o = Undef.
Proof. destruct o; simpl; congruence. Qed.
Theorem C54_short_samples_refuted : exists s, rreach gH 6 rsafe s /\ (exists combs, make_train_set [[0; 1]] = Ok combs /\
  rok (RGradient (mkTI combs None) 1) s /\ careful True s (RGradient (mkTI combs None) 1) /\ balanced (r_h s) (without_evidences s) /\
  rcall env_id (RGradient (mkTI combs None) 1) s = Undef).
Proof.
  exists rsafe_state. split. exact rsafe_reach. exists [[0; 1]]. split. reflexivity. split. exact I. split. exact I. split.
  - apply balancedb_ok. vm_compute. reflexivity.
  - apply is_undef_ok. vm_compute. reflexivity.
Qed.
Theorem C54_values_out_of_range_refuted : exists s, rreach gH 6 rsafe s /\ (exists combs, make_train_set [[0; 1; 0; 0]; [2; 7; 2; 9]] = Ok combs /\
  rok (RGradient (mkTI combs None) 1) s /\ careful True s (RGradient (mkTI combs None) 1) /\ balanced (r_h s) (without_evidences s) /\
  rcall env_id (RGradient (mkTI combs None) 1) s = Undef).
Proof.
  exists rsafe_state. split. exact rsafe_reach. exists [[0; 1; 0; 0]; [2; 7; 2; 9]]. split. reflexivity. split. exact I. split. exact I. split.
  - apply balancedb_ok. vm_compute. reflexivity.
  - apply is_undef_ok. vm_compute. reflexivity.
Qed.

Print Assumptions C54_field_no_undefined_behaviour_partial.
Print Assumptions C54_field_numbers_partial.
Print Assumptions C54_field_weights_partial.
Print Assumptions C54_short_samples_refuted.
Print Assumptions C54_values_out_of_range_refuted.
