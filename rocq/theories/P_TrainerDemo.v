(** Models that meet the hypotheses of the theorems of C52, and trainings that are not
    the ones of C52 *)
From Coq Require Import String List Arith Bool Lia Permutation Relations QArith Qcanon Reals.
From Verif Require Import Res Num RealNum Categoric Combs Func FuncProofs GroupProofs FactorProofs FactorApi Special SpecialProofs
  Graph GraphLemmas Clusters Belief Query Gibbs GraphInv EvidInv BeliefInv BigOp Tree Cycle BPStep BPRun GraphSpec Hist P_Graph BeliefSpec Sums Exact BeliefHist Queries
  Parts JointSpec Joint GibbsProofs Train TrainHist Coherent TrainSpec Gradient TrainInv GradientRun Likelihood P_Categoric P_Factor Demo BeliefDemo TrainDemo P_Train P_Gradient P_GradientDemo
  CRF CRFHist CRFInv CRFSpec CRFGradient P_CRF P_CRFDemo P_CRFGradient P_CRFGradientDemo Trainer TrainerSpec TrainerProofs P_Trainer.
Import ListNotations.
Open Scope nat_scope.

(** {1 Conditions on the factors, whatever the weights} *)
Section Conditions.
  Context {N : num} (OK : num_ok N).
  (** the values stored by a factor *)
  Definition raw (f : func N) : func N := mkFunc (f_group f) (f_info f) (f_data f) None.
  Lemma raw_symmetric (F : nat -> func N) A cs ws : symmetric (fun f => raw (F f)) A -> symmetric (with_weights F cs ws) A.
  Proof.
    intros SY f v w J H1 H2. unfold joins, fv in J. rewrite ww_vars in J. destruct (SY f v w) as [E V]; auto. split; auto.
    intros i j Li Lj. unfold fval. rewrite ww_img. f_equal. exact (V i j Li Lj).
  Qed.
  (** the factors without a weight have a positive value *)
  Definition lights (F : nat -> func N) A cs x : bool :=
    forallb (fun f => existsb (Nat.eqb f) (concat cs) || nltb n0 (fval (F f) (map (val x) (f_vars (F f))))) (sp_facs A).
  Lemma lights_positive (F : nat -> func N) A cs ws x : NoDup (concat cs) -> length ws = length cs -> lights F A cs x = true -> (n0 < weight (with_weights F cs ws) A x)%num.
  Proof.
    intros ND L Q. unfold weight, lights in *. rewrite forallb_forall in Q. revert Q. generalize (sp_facs A) as l. induction l as [|f l IH]; intros Q.
    - apply (nlt_0_1 OK).
    - change (n0 < fval (with_weights F cs ws f) (map (val x) (f_vars (with_weights F cs ws f))) * prodL (fun f => fval (with_weights F cs ws f) (map (val x) (f_vars (with_weights F cs ws f)))) l)%num.
      apply (ok_mul N OK). 2:{ apply IH. intros g J. apply Q. right; auto. }
      rewrite ww_vars. destruct (in_dec Nat.eq_dec f (concat cs)) as [J|J].
      + apply in_concat in J as (c & Jc & Jf). apply In_nth_error in Jc as (k & Hc).
        assert (B : k < length cs) by (apply nth_error_Some; congruence). destruct (nth_error ws k) as [w|] eqn:Hw; [|apply nth_error_None in Hw; lia].
        rewrite (with_weights_in F cs ND ws k c w f Hc Hw Jf). unfold fval, transform. cbn [f_exp with_weight]. apply (ok_exp N OK).
      + rewrite with_weights_out by auto. specialize (Q f (or_introl eq_refl)). apply orb_true_iff in Q as [Q|Q]; auto.
        exfalso. apply existsb_exists in Q as (g & Jg & Eg). apply Nat.eqb_eq in Eg. subst. auto.
  Qed.
  Definition trainableb (s : rst (N:=N)) : bool :=
    symmetricb (fun f => raw (r_h s f)) (bare s) && existsb (lights (r_h s) (bare s) (tunable_clusters s)) (all_asg (g_vars (r_g s))) && forestb (r_h s) (bare s).
  Lemma trainableb_ok P s : coh P s -> trainableb s = true -> trainable s.
  Proof.
    intros C Q. apply andb_true_iff in Q as [Q Q3]. apply andb_true_iff in Q as [Q1 Q2]. apply existsb_exists in Q2 as (x & J & Q2). split.
    - intros ws L. split. apply raw_symmetric. apply (symmetricb_ok OK). auto.
      exists x. split. split; auto. unfold agrees. apply forallb_forall. intros; reflexivity. apply lights_positive; auto. apply (ri_cls _ (ch_r _ _ C)).
    - intros v _. apply (forestb_ok (r_h s)); auto. apply (nodup_vars P); auto.
  Qed.
  Definition tunables_hiddenb (s : rst (N:=N)) : bool := forallb (forallb (fun f => (length (f_vars (r_h s f)) =? 2) && on_hiddenb s f)) (tunable_clusters s).
  Lemma tunables_hiddenb_ok s : tunables_hiddenb s = true -> tunables_hidden s.
  Proof.
    unfold tunables_hiddenb. rewrite forallb_forall. intros Q c f Jc Jf. apply Q in Jc. rewrite forallb_forall in Jc. apply Jc, andb_true_iff in Jf as [J1 J2].
    split. apply Nat.eqb_eq; auto. apply on_hiddenb_ok; auto.
  Qed.
End Conditions.

(** gradient descent, with a given rate and a number of steps *)
Fixpoint descent (rate : QcNum) (n : nat) : trainer (N:=QcNum) :=
  match n with
  | 0 => TDone
  | S n => TParameters (fun ws => TGradient (fun g => TSet (map (fun p => (fst p - rate * snd p)%num) (combine ws g)) (descent rate n)))
  end.
Definition same_weights (a : res (list QcNum)) (b : list QcNum) : bool :=
  match a with Ok l => (length l =? length b) && forallb (fun p => neqb (fst p) (snd p)) (combine l b) | _ => false end.
Lemma same_weights_refl l : same_weights (Ok l) l = true.
Proof.
  unfold same_weights. rewrite Nat.eqb_refl. induction l as [|a l IH]; auto.
  assert (R : neqb a a = true) by (apply (ok_eqb QcNum QcNum_ok); auto). cbn [combine forallb fst snd andb] in *. rewrite R. exact IH.
Qed.

(** {1 A random field}

    A - C and C - D with a shared weight, D - E with another one, a constant factor on
    A, and an evidence on B, which is alone. *)
Definition tH (f : nat) : func QcNum :=
  match f with
  | 0 => expo_of (sym2 exA exC (q 2 1) (q 1 1) (q 3 1)) (q 1 2)
  | 1 => expo_of (sym2 exC exD (q 1 1) (q 4 1) (q 2 1)) (q 3 1)
  | 2 => table [exA] [([0], q 1 1); ([1], q 3 1)]
  | 3 => expo_of (sym2 exD exE (q 1 2) (q 5 1) (q 1 1)) (q 1 1)
  | 4 => table [exB] [([0], q 1 1); ([1], q 3 1); ([2], q 1 1)]
  | _ => expo_of (table [exD] [([0], q 1 1); ([1], q 2 1)]) (q 1 1)
  end.
Lemma tH_built f : built (tH f).
Proof.
  do 5 (destruct f as [|f]; [first [apply expo_of_built|apply table_built]; repeat constructor; auto using exA_made, exB_made, exC_made, exD_made, exE_made|]).
  apply expo_of_built; repeat constructor; auto using exD_made.
Qed.
Definition t_tale : list (rop (N:=QcNum)) :=
  [RConst (Some 2); RTun (Some 0) None; RTun (Some 3) None; RConst (Some 4); RTun (Some 1) (Some [exC; exA]); RGraph (OSet exB 1)].
Notation t_state := (rruns (r_empty tH 6) t_tale).
Lemma t_reach : rreach tH 6 (steady False) t_state.
Proof. apply rruns_steady. constructor. vm_compute. reflexivity. Qed.
Lemma t_coh : coh False t_state.
Proof. apply (rreach_full False tH 6); [exact tH_built|exact t_reach]. Qed.
(** the order of the variables is A, C, D, E, B *)
Definition t_combs : list (list nat) := [[0; 1; 1; 0; 2]; [1; 1; 0; 0; 1]; [1; 0; 0; 1; 0]; [0; 0; 1; 1; 1]].
Definition t_info : train_info (N:=QcNum) := mkTrainInfo 3 (q 3 5).
Definition t_rand (k j : nat) : nat := 3 * k + 2 * j.
Notation t_grad := (fun k => log_gradient (r_h t_state) (bare t_state) (tunable_clusters t_state) (drawn qfloor t_rand t_combs (q 3 5) k)).

Lemma t_enough : enough qfloor (info_percentage t_info) (length t_combs).
Proof. right. split; [|split]. vm_compute; reflexivity. vm_compute; reflexivity. apply Nat.leb_le. vm_compute. reflexivity. Qed.
Example C52_example : exists s', train_field qfloor t_rand (fun _ => env_rev) (descent (q 1 2) 2) t_combs t_info t_state = Ret tt s' /\
  get_weights s' = Ok (fst (ideal_training 2 t_grad (descent (q 1 2) 2) 0 [q 1 2; q 1 1])).
Proof.
  assert (GW : get_weights t_state = Ok [q 1 2; q 1 1]) by (vm_compute; reflexivity).
  destruct (C52_field_partial QcNum_ok tH 6 t_state [q 1 2; q 1 1] (descent (q 1 2) 2) (fun _ => env_rev) qfloor t_rand t_combs t_info tH_built t_reach) as (s' & E1 & E2 & _); try exact GW.
  - apply tunables_hiddenb_ok. vm_compute. reflexivity.
  - apply (trainableb_ok QcNum_ok False). exact t_coh. vm_compute. reflexivity.
  - intros _. apply env_rev_ok.
  - simpl. lia.
  - apply usable_setb_ok. vm_compute. reflexivity.
  - exact t_enough.
  - assert (LC : length (tunable_clusters t_state) = 2) by (vm_compute; reflexivity). rewrite LC in E1, E2. exists s'. split; [|exact E2].
    rewrite E1. match goal with |- (if ?b then _ else _) = _ => assert (X : b = true) by (vm_compute; reflexivity); rewrite X; reflexivity end.
Qed.
(** the weights change, and the combinations drawn are not the same in the two steps *)
Example C52_example_values :
  same_weights (Ok (fst (ideal_training 2 t_grad (descent (q 1 2) 2) 0 [q 1 2; q 1 1]))) [q 1 2; q 1 1] = false /\
  drawn qfloor t_rand t_combs (q 3 5) 0 = [[0; 1; 1; 0; 2]; [1; 0; 0; 1; 0]] /\ drawn qfloor t_rand t_combs (q 3 5) 1 = [[0; 0; 1; 1; 1]; [1; 1; 0; 0; 1]] /\
  tunable_clusters t_state = [[0; 1]; [3]].
Proof. repeat split; vm_compute; reflexivity. Qed.
(** a trainer that sets a vector of another size, and one that throws *)
Example C52_example_throws :
  snd (ideal_training 2 t_grad (TSet [q 4 1; q 5 1] (TSet [q 1 1] TDone)) 0 [q 1 2; q 1 1]) = false /\
  rthrew (train_field qfloor t_rand (fun _ => env_id) (TSet [q 4 1; q 5 1] (TSet [q 1 1] TDone)) t_combs t_info t_state) = true /\
  same_weights (get_weights (rafter t_state (train_field qfloor t_rand (fun _ => env_id) (TSet [q 4 1; q 5 1] (TSet [q 1 1] TDone)) t_combs t_info t_state))) [q 4 1; q 5 1] = true /\
  rthrew (train_field qfloor t_rand (fun _ => env_id) (TGradient (fun _ => TError)) t_combs t_info t_state) = true.
Proof. repeat split; vm_compute; reflexivity. Qed.

(** {1 Trainings that go wrong} *)

(** a tunable factor on one variable: after the weights are set, the gradient is still
    the one of the old weights in part, and the training ends elsewhere *)
Notation u_state := (rruns (r_empty tH 6) [RTun (Some 5) None; RConst (Some 1)]).
Definition u_combs : list (list nat) := [[0; 0]; [1; 1]].
Notation u_grad := (fun k => log_gradient (r_h u_state) (bare u_state) (tunable_clusters u_state) (drawn qfloor t_rand u_combs (q 1 1) k)).
Definition u_trainer : trainer (N:=QcNum) := descent (q 1 2) 2.
Theorem C52_unary_refuted : exists s s' (t : trainer (N:=QcNum)) ws, rreach tH 6 (steady False) s /\ trainable s /\ usable_set s u_combs /\ get_weights s = Ok ws /\
  train_field qfloor t_rand (fun _ => env_id) t u_combs (mkTrainInfo 1 (q 1 1)) s = Ret tt s' /\
  get_weights s' <> Ok (fst (ideal_training (length (tunable_clusters s)) (fun k => log_gradient (r_h s) (bare s) (tunable_clusters s) (drawn qfloor t_rand u_combs (q 1 1) k)) t 0 ws)).
Proof.
  set (o := train_field qfloor t_rand (fun _ => env_id) u_trainer u_combs (mkTrainInfo 1 (q 1 1)) u_state).
  assert (R : rreach tH 6 (steady False) u_state) by (apply rruns_steady; [constructor|vm_compute; reflexivity]).
  assert (D : rdone o && negb (rthrew o) = true) by (vm_compute; reflexivity).
  assert (W : same_weights (get_weights (rafter u_state o)) (fst (ideal_training 1 u_grad u_trainer 0 [q 1 1])) = false) by (vm_compute; reflexivity).
  exists u_state, (rafter u_state o), u_trainer, [q 1 1]. split. exact R. split.
  { apply (trainableb_ok QcNum_ok False). apply (rreach_full False tH 6); [exact tH_built|exact R]. vm_compute. reflexivity. }
  split. { apply usable_setb_ok. vm_compute. reflexivity. } split. { vm_compute. reflexivity. } split.
  { unfold rafter. fold o. destruct o as [[] s|s| | |]; try discriminate D. reflexivity. }
  assert (LC : length (tunable_clusters u_state) = 1) by (vm_compute; reflexivity). rewrite LC. intros E. rewrite E, same_weights_refl in W. discriminate W.
Qed.

(** a percentage that draws no combination is accepted, and the training set does not
    matter any more: two training sets give the same weights, which are not those at the
    beginning *)
Definition v_combs : list (list nat) := [[0; 0; 0; 0; 2]; [0; 0; 0; 0; 1]; [0; 0; 0; 0; 0]; [0; 0; 0; 0; 1]].
Definition w_combs : list (list nat) := [[1; 0; 1; 0; 2]; [1; 0; 1; 0; 1]; [0; 1; 0; 1; 0]; [0; 1; 0; 1; 1]].
Lemma same_weights_eq a l : same_weights a l = true -> a = Ok l.
Proof.
  destruct a as [l'| | | |]; try discriminate. unfold same_weights. intros Q. apply andb_true_iff in Q as [L Q]. f_equal. apply Nat.eqb_eq in L. revert l L Q.
  induction l' as [|x l' IH]; intros [|y l] L Q; try discriminate L; auto. cbn [combine forallb fst snd] in Q. apply andb_true_iff in Q as [Q1 Q2].
  f_equal. apply (ok_eqb QcNum QcNum_ok); auto. apply IH; auto.
Qed.
Theorem C52_small_percentage_refuted : exists s (p : QcNum) ws s1 s2, rreach tH 6 (steady False) s /\ tunables_hidden s /\ trainable s /\ (n0 < p)%num /\ (p < n1)%num /\
  usable_set s v_combs /\ usable_set s w_combs /\
  train_field qfloor t_rand (fun _ => env_id) (descent (q 1 2) 1) v_combs (mkTrainInfo 1 p) s = Ret tt s1 /\
  train_field qfloor t_rand (fun _ => env_id) (descent (q 1 2) 1) w_combs (mkTrainInfo 1 p) s = Ret tt s2 /\
  get_weights s1 = Ok ws /\ get_weights s2 = Ok ws /\ get_weights s <> Ok ws.
Proof.
  set (o1 := train_field qfloor t_rand (fun _ => env_id) (descent (q 1 2) 1) v_combs (mkTrainInfo 1 (q 1 5)) t_state).
  set (o2 := train_field qfloor t_rand (fun _ => env_id) (descent (q 1 2) 1) w_combs (mkTrainInfo 1 (q 1 5)) t_state).
  set (ws := match get_weights (rafter t_state o1) with Ok l => l | _ => [] end).
  assert (D1 : rdone o1 && negb (rthrew o1) = true) by (vm_compute; reflexivity).
  assert (D2 : rdone o2 && negb (rthrew o2) = true) by (vm_compute; reflexivity).
  assert (W1 : same_weights (get_weights (rafter t_state o1)) ws = true) by (vm_compute; reflexivity).
  assert (W2 : same_weights (get_weights (rafter t_state o2)) ws = true) by (vm_compute; reflexivity).
  assert (W3 : same_weights (get_weights t_state) ws = false) by (vm_compute; reflexivity).
  exists t_state, (q 1 5), ws, (rafter t_state o1), (rafter t_state o2). split. exact t_reach. split. { apply tunables_hiddenb_ok. vm_compute. reflexivity. }
  split. { apply (trainableb_ok QcNum_ok False). exact t_coh. vm_compute. reflexivity. }
  split. { vm_compute. reflexivity. } split. { vm_compute. reflexivity. } split. { apply usable_setb_ok. vm_compute. reflexivity. } split. { apply usable_setb_ok. vm_compute. reflexivity. }
  split. { fold o1. unfold rafter. destruct o1 as [[] s|s| | |]; try discriminate D1. reflexivity. }
  split. { fold o2. unfold rafter. destruct o2 as [[] s|s| | |]; try discriminate D2. reflexivity. }
  split. { apply same_weights_eq. exact W1. } split. { apply same_weights_eq. exact W2. }
  intros E. rewrite E, same_weights_refl in W3. discriminate W3.
Qed.

(** {1 A conditional random field} *)
Definition crf_trainableb (c : crf (N:=QcNum)) (combs : list (list nat)) : bool :=
  symmetricb (fun f => raw (factors c f)) (content c) &&
  forallb (fun x => existsb (fun y => agrees (given (content c) x) y && lights (factors c) (content c) (tunable_clusters (c_r c)) y) (all_asg (g_vars (graph_of c)))) combs &&
  forestb (factors c) (content c).
Lemma crf_trainableb_ok c combs : creach c -> crf_trainableb c combs = true -> crf_trainable c combs.
Proof.
  intros R Q. apply andb_true_iff in Q as [Q Q3]. apply andb_true_iff in Q as [Q1 Q2]. rewrite forallb_forall in Q2. pose proof (creach_inv c R) as CI. split.
  - intros ws L. split. apply raw_symmetric. apply (symmetricb_ok QcNum_ok). auto.
    intros x J. apply Q2 in J. apply existsb_exists in J as (y & J & Y). apply andb_true_iff in Y as [Y1 Y2]. exists y. split. split; auto.
    apply (lights_positive QcNum_ok); auto. apply (ri_cls _ (ci_r _ CI)).
  - intros v _. apply (forestb_ok (factors c)); auto. eapply NoDup_map_inv. apply (sh_vars _ _ (ci_shape _ CI)).
Qed.
Definition a_combs : list (list nat) := [[0; 1; 0; 1; 1]; [0; 0; 1; 1; 0]; [1; 0; 1; 2; 0]].
Notation a_grad := (fun k => cond_gradient (factors a_crf') (content a_crf') (tunable_clusters (c_r a_crf')) (drawn qfloor t_rand a_combs n1 k)).
Definition a_weights : list QcNum := [q 1 3; q 1 1; q 2 1].
Example C52_crf_example : exists s', train_crf qfloor t_rand (fun _ _ => env_id) (c_pos a_crf') (descent (q 1 2) 1) a_combs (mkTrainInfo 2 n1) (c_r a_crf') = Ret tt s' /\
  get_weights s' = Ok (fst (ideal_training 3 a_grad (descent (q 1 2) 1) 0 a_weights)).
Proof.
  assert (GW : get_weights (c_r a_crf') = Ok a_weights) by (vm_compute; reflexivity).
  destruct (C52_crf_partial QcNum_ok a_crf' true a_weights (descent (q 1 2) 1) (fun _ _ => env_id) qfloor t_rand a_combs (mkTrainInfo 2 n1) a_lives) as (s' & E1 & E2 & _); try exact GW.
  - apply exposedb_ok. vm_compute. reflexivity.
  - apply crf_trainableb_ok. apply (clives_creach true). exact a_lives. vm_compute. reflexivity.
  - intros _ _. apply env_id_ok.
  - intros _. exact a_positions.
  - simpl. lia.
  - apply usableb_ok. vm_compute. reflexivity.
  - left. reflexivity.
  - assert (LC : length (tunable_clusters (c_r a_crf')) = 3) by (vm_compute; reflexivity). rewrite LC in E1, E2. exists s'. split; [|exact E2].
    rewrite E1. match goal with |- (if ?b then _ else _) = _ => assert (X : b = true) by (vm_compute; reflexivity); rewrite X; reflexivity end.
Qed.
Example C52_crf_values : same_weights (Ok (fst (ideal_training 3 a_grad (descent (q 1 2) 1) 0 a_weights))) a_weights = false.
Proof. vm_compute. reflexivity. Qed.

(** the hypotheses of [C52_percentage] and [C52_zero_threads] *)
Example C52_percentage_example : rthrew (train_field qfloor t_rand (fun _ => env_id) (descent (q 1 2) 2) t_combs (mkTrainInfo 1 (q 3 2)) t_state) = true.
Proof. vm_compute. reflexivity. Qed.
Print Assumptions C52_unary_refuted.
Print Assumptions C52_small_percentage_refuted.

(** {1 The objective, over the reals}

    An exponential factor on A and C, any weight; in the second model C is observed. *)
Section RealObjective.
  Definition rA : spec := mkSpec [exA; exC] (fun _ => None) [0].
  Lemma real_weight u x : (R0 < weight (with_weights (fun _ => rfac) [[0%nat]] [u]) rA x)%R.
  Proof.
    apply R_ltb_spec. unfold weight. cbn [sp_facs rA]. cbn [prodL map fold_right]. apply (ok_mul RNum RNum_ok); [|apply (nlt_0_1 RNum_ok)].
    apply (ok_exp RNum RNum_ok).
  Qed.
  Lemma real_mass u A : sp_vars A = [exA; exC] -> (exists x, possible A x) -> (R0 < mass (weight (with_weights (fun _ => rfac) [[0%nat]] [u]) rA) A (fun _ => true))%R.
  Proof.
    intros V (x & J & Q). unfold mass. apply R_ltb_spec. apply (sumL_pos RNum_ok).
    - intros y _. destruct (agrees A y && true). apply (nlt_le RNum_ok), R_ltb_spec, real_weight. apply (nle_refl RNum_ok).
    - exists x. split; auto. rewrite Q. apply R_ltb_spec, real_weight.
  Qed.
  Example C52_objective_example : forall u : R, exists d,
    derivable_pt_lim (fun t => loglik (with_weights (fun _ => rfac) [[0]] [t]) rA [exA; exC] [[0; 0]; [0; 1]; [1; 1]]) u d.
  Proof.
    intros u. eexists. apply (C52_objective (fun _ => rfac) rA [[0]] [u] [[0; 0]; [0; 1]; [1; 1]] 0 u); try reflexivity.
    - repeat constructor. intros [].
    - repeat constructor. intros [].
    - intros f J. exact J.
    - discriminate.
    - intros x _. apply real_weight.
    - apply real_mass; auto. exists [(exA, 0); (exC, 0)]. split; vm_compute; auto.
  Qed.
  Example C52_conditional_objective_example : forall u : R, exists d,
    derivable_pt_lim (fun t => cond_loglik (with_weights (fun _ => rfac) [[0]] [t]) (mkSpec [exA; exC] (fun a => if String.eqb (fst a) "C"%string then Some 1 else None) [0]) [[0; 0]; [1; 1]]) u d.
  Proof.
    intros u. set (A := mkSpec [exA; exC] _ _). eexists. apply (C52_conditional_objective (fun _ => rfac) A [[0]] [u] [[0; 0]; [1; 1]] 0 u); try reflexivity.
    - repeat constructor. intros [].
    - repeat constructor. intros [].
    - intros f J. exact J.
    - discriminate.
    - intros x [<-|[<-|[]]]; split; try apply (real_weight u); apply (real_mass u); auto.
      exists [(exA, 0); (exC, 0)]. split; vm_compute; auto. exists [(exA, 0); (exC, 1)]. split; vm_compute; auto.
  Qed.
End RealObjective.
