(** Property C29, for random fields, conditional random fields, sampling and
    trainings: every call ends, after any history. A training ends when the
    trainer makes a finite number of calls ([trainer] is an inductive type). *)
From Coq Require Import String List Arith Bool Lia Permutation QArith Qcanon Ring_theory Field_theory.
From Verif Require Import Res Num Categoric Combs Func FuncProofs GroupProofs FactorProofs FactorApi Special SpecialProofs
  Graph GraphLemmas Clusters Belief Query GraphInv EvidInv BeliefInv GraphSpec Hist Tree BPRun Indep SafeSpec Safe Halt Gibbs Train TrainHist CRF Coherent CRFHist Trainer P_Train P_CRF
  P_Categoric P_Factor Demo BeliefDemo TrainDemo P_Gibbs P_GradientDemo P_CRFDemo FieldSafeSpec FieldSafe P_FieldSafe FieldHalt.
Import ListNotations.
Open Scope nat_scope.

Section P.
  Context {N : num}.
  Notation rst := (rst (N:=N)).
  Notation crf := (crf (N:=N)).
  Implicit Types s : rst.
  Implicit Types c : crf.

  (** a call on a random field. [any]: the calls that came before are not restricted *)
  Theorem C29_field_calls_terminate : forall h top s e op, (forall f, built (h f)) -> rreach h top any s -> rok op s -> env_ok e ->
    rcall e op s <> NoStop.
  Proof. intros h top s e op. apply rreach_halts. Qed.

  (** [makeSamples] on a random field; whatever the numbers drawn *)
  Theorem C29_samples_terminate : forall h top s e draw ceil10 ctx threads, (forall f, built (h f)) -> rreach h top any s -> env_ok e ->
    make_samples (r_h s) draw e ceil10 ctx threads (r_g s) <> NoStop.
  Proof.
    intros h top s e draw ceil10 ctx n Hb R E Q. pose proof (rreach_neat False h top any s Hb R) as I.
    pose proof (calm_samples (r_h s) (neat_solids s I) draw e ceil10 ctx n (r_g s) (proj2 I)) as X. rewrite Q in X. exact X.
  Qed.

  (** the construction of a conditional random field, and the calls on it. For
      [makeTrainSet]: [floorf] does not give, for a percentage in [0, 1] of [n], more
      than [n] *)
  Theorem C29_conditional_construction_terminates : forall h top s e copy, (forall f, built (h f)) -> rreach h top any s -> env_ok e ->
    crf_ctor e s copy <> NoStop.
  Proof. intros h top s e copy Hb R E. apply ctor_halts. eapply (rreach_neat False); eauto. Qed.
  Definition percentages (floorf : N -> nat) : Prop :=
    forall n p, (p <= n1)%num -> (n0 <= p)%num -> floorf (nofnat n * p)%num <= n.
  Theorem C29_conditional_calls_terminate : forall c e op, creach c -> cok op -> env_ok e ->
    (forall draw floorf ceil10 es ctx p threads, op = CTrain draw floorf ceil10 es ctx p threads -> percentages floorf) ->
    ccall e (c_pos c) op (c_r c) <> NoStop.
  Proof. intros c e op R K E T. apply creach_halts; auto. Qed.

  (** the trainings *)
  Theorem C29_trainings_terminate : forall h top s floorf rand es t combs info, (forall f, built (h f)) -> rreach h top any s -> (forall k, env_ok (es k)) ->
    train_field floorf rand es t combs info s <> NoStop.
  Proof.
    intros h top s floorf rand es t combs info Hb R E Q. pose proof (rreach_neat False h top any s Hb R) as I.
    assert (X : rcalm False (train_field floorf rand es t combs info s)). { apply train_halts; auto. intros; apply rcalm_rf_gradient; auto. }
    rewrite Q in X. exact X.
  Qed.
  Theorem C29_conditional_trainings_terminate : forall c floorf rand es t combs info, creach c -> (forall k i, env_ok (es k i)) ->
    train_crf floorf rand es (c_pos c) t combs info (c_r c) <> NoStop.
  Proof.
    intros c floorf rand es t combs info R E Q. pose proof (creach_neat c R) as I.
    assert (X : rcalm False (train_crf floorf rand es (c_pos c) t combs info (c_r c))). { apply train_halts; auto. intros; apply rcalm_crf_gradient; auto. }
    rewrite Q in X. exact X.
  Qed.

  (** with C54: a call on a random field returns or throws, unless it stops at a
      division by zero of an arithmetic that stops there *)
  Theorem C54_field_outcomes_partial : forall h top s e op, (forall f, built (h f)) -> rreach h top rsafe s -> rok op s -> rsafe s op -> env_ok e ->
    (exists a s', rcall e op s = Ret a s') \/ (exists s', rcall e op s = Thr s') \/ rcall e op s = NotNum /\ Safe.stops N.
  Proof.
    intros h top s e op Hb R Hop G E. destruct (rreach_defined h top s e op Hb R Hop G E) as [Q0 Q1].
    assert (Q2 : rcall e op s <> NoStop) by (apply (rreach_halts h top rsafe); auto).
    destruct (rcall e op s) as [a s'|s'| | |]; eauto; congruence.
  Qed.
End P.

(** with exact numbers the rounding is a rounding down *)
Lemma rounds_down_percentages {N : num} (OK : num_ok N) floorf : rounds_down (N:=N) floorf -> percentages floorf.
Proof.
  intros FL n p P1 P0. apply (nofnat_mono OK). eapply (nle_trans OK). apply FL. apply (nmul_nonneg OK); auto. apply (nofnat_nonneg OK).
  apply (nle_trans OK) with (nofnat n * n1 : N)%num. apply (nmul_le_l OK). apply (nofnat_nonneg OK). auto.
  rewrite (Rmul_comm (F_R (ok_field N OK))), (Rmul_1_l (F_R (ok_field N OK))). apply (nle_refl OK).
Qed.

(** {1 Examples} *)
(** calls that return, on the random field of [rsafe_tale] and on a conditional one *)
Definition hreturns {S A} (o : out S A) : bool := match o with Ret _ _ => true | _ => false end.
Example C29_field_example : rreach gH 6 any rsafe_state /\ rok (RGradient grad_set 2) rsafe_state /\ hreturns (rcall env_id (RGradient grad_set 2) rsafe_state) = true.
Proof. split. apply rruns_reach. intros; exact Logic.I. constructor. vm_compute. reflexivity. split. exact Logic.I. vm_compute. reflexivity. Qed.
Example C29_samples_example : hreturns (make_samples (r_h crf_field) (cdraws 0) env_id (fun n => n) cctx 2 (r_g crf_field)) = true.
Proof. vm_compute. reflexivity. Qed.
Example C29_conditional_example : creach demo_crf /\ percentages qfloor /\
  hreturns (ccall env_id (c_pos demo_crf) (CTrain cdraws qfloor (fun n => n) (fun _ => env_id) cctx (q 1 2) 1) (c_r demo_crf)) = true.
Proof. split. apply demo_crf_reach. split. apply (rounds_down_percentages QcNum_ok), qfloor_ok. vm_compute. reflexivity. Qed.
(** a trainer that reads the weights, asks the gradient and makes a step *)
Definition one_step : trainer (N:=QcNum) :=
  TParameters (fun ws => TGradient (fun g => TSet (map (fun p => (fst p - snd p)%num) (combine ws g)) TDone)).
Example C29_training_example : hreturns (train_field qfloor (fun k j => k + j) (fun _ => env_id) one_step [[0; 1; 1; 0]; [1; 1; 0; 0]] (mkTrainInfo 2 n1) rsafe_state) = true.
Proof. vm_compute. reflexivity. Qed.
Example C29_conditional_training_example :
  hreturns (train_crf qfloor (fun k j => k + j) (fun _ _ => env_id) (c_pos demo_crf) one_step [[0; 1; 1]; [1; 2; 0]] (mkTrainInfo 2 n1) (c_r demo_crf)) = true.
Proof. vm_compute. reflexivity. Qed.
Example C54_outcomes_example : rreach gH 6 rsafe rsafe_state /\ rsafe rsafe_state (RGradient grad_set 3) /\ hreturns (rcall env_id (RGradient grad_set 3) rsafe_state) = true.
Proof. split. apply rsafe_reach. split. apply rsafe_next. vm_compute. reflexivity. Qed.

Print Assumptions C29_field_calls_terminate.
Print Assumptions C29_samples_terminate.
Print Assumptions C29_conditional_construction_terminates.
Print Assumptions C29_conditional_calls_terminate.
Print Assumptions C29_trainings_terminate.
Print Assumptions C29_conditional_trainings_terminate.
Print Assumptions C54_field_outcomes_partial.
