(** Conditional random fields that meet the hypotheses of the theorems of C51, and
    fields on which the gradient is another one *)
From Coq Require Import String List Arith Bool Lia Permutation Relations QArith Qcanon Reals.
From Verif Require Import Res Num RealNum Categoric Combs Func FuncProofs GroupProofs FactorProofs FactorApi Special SpecialProofs
  Graph GraphLemmas Clusters Belief Query Gibbs GraphInv EvidInv BeliefInv BigOp Tree Cycle BPStep BPRun GraphSpec Hist P_Graph BeliefSpec Sums Exact BeliefHist Queries
  Parts JointSpec Joint Train TrainHist Coherent TrainSpec Gradient TrainInv GradientRun Likelihood P_Categoric P_Factor Demo BeliefDemo TrainDemo P_Train P_Gradient P_GradientDemo
  CRF CRFHist CRFInv CRFSpec CRFGradient P_CRF P_CRFDemo P_CRFGradient.
Import ListNotations.
Open Scope nat_scope.

(** A - B, C - A and A - D with a shared weight, a weight on A, a constant factor on
    D - E; B (of size 3) and C are observed. The last factor is on E. *)
Definition aH (f : nat) : func QcNum :=
  match f with
  | 0 => expo_of (table [exA; exB] [([0; 0], q 1 1); ([0; 1], q 2 1); ([0; 2], q 1 1); ([1; 0], q 4 1); ([1; 1], q 1 1); ([1; 2], q 5 1)]) (q 1 2)
  | 1 => expo_of (table [exC; exA] [([0; 0], q 3 1); ([0; 1], q 1 1); ([1; 0], q 2 1); ([1; 1], q 7 1)]) (q 2 1)
  | 2 => expo_of (table [exA; exD] [([0; 0], q 2 1); ([0; 1], q 1 1); ([1; 0], q 1 1); ([1; 1], q 3 1)]) (q 1 1)
  | 3 => expo_of (table [exA] [([0], q 1 1); ([1], q 3 1)]) (q 1 1)
  | 4 => table [exD; exE] [([0; 0], q 2 1); ([0; 1], q 5 1); ([1; 0], q 5 1); ([1; 1], q 1 1)]
  | _ => expo_of (table [exE] [([0], q 2 1); ([1], q 3 1)]) (q 1 1)
  end.
Lemma aH_built f : built (aH f).
Proof.
  do 5 (destruct f as [|f]; [first [apply expo_of_built|apply table_built]; repeat constructor; auto using exA_made, exB_made, exC_made, exD_made, exE_made|]).
  apply expo_of_built; repeat constructor; auto using exE_made.
Qed.
Definition a_tale : list (rop (N:=QcNum)) :=
  [RConst (Some 4); RTun (Some 0) None; RTun (Some 1) None; RTun (Some 2) (Some [exC; exA]); RTun (Some 3) None; RGraph (OSet exB 0); RGraph (OSet exC 1)].
Notation a_field := (rruns (r_empty aH 6) a_tale).
Lemma a_reach : rreach aH 6 any a_field.
Proof. apply rruns_reach. intros; exact Logic.I. constructor. vm_compute. reflexivity. Qed.
Lemma crf_of_made e (src : rst (N:=QcNum)) copy : rdone (crf_ctor e src copy) && negb (rthrew (crf_ctor e src copy)) = true -> exists s, crf_ctor e src copy = Ret (crf_of (crf_ctor e src copy)) s.
Proof. intros X. unfold crf_of. destruct (crf_ctor e src copy) as [c s|s| | |]; try discriminate. eauto. Qed.

(** the field after a call *)
Definition cafter (c : crf (N:=QcNum)) (op : cop (N:=QcNum)) : crf := mkC (rafter (c_r c) (ccall env_id (c_pos c) op (c_r c))) (c_pos c).
Definition cgood (c : crf (N:=QcNum)) (op : cop (N:=QcNum)) : bool := let o := ccall env_id (c_pos c) op (c_r c) in rdone o && negb (rthrew o).
Lemma cafter_lives b c op : clives b c -> cok op -> allowed b (c_r c) op -> cgood c op = true -> clives (CRFInv.later b op) (cafter c op).
Proof.
  intros R K AL Q. unfold cgood, cafter in *. destruct (ccall env_id (c_pos c) op (c_r c)) eqn:E; try discriminate. simpl rafter.
  eapply CL_ret; eauto. apply env_id_ok.
Qed.
Lemma cafter_reach c op : creach c -> cok op -> cgood c op = true -> creach (cafter c op).
Proof.
  intros R K Q. unfold cgood, cafter in *. destruct (ccall env_id (c_pos c) op (c_r c)) eqn:E; try discriminate. simpl rafter.
  eapply CR_ret; eauto. apply env_id_ok.
Qed.
Definition exposedb (s : rst (N:=QcNum)) : bool :=
  forallb (fun f => match f_vars (r_h s f) with
                    | [v] => existsb (fun f' => match f_vars (r_h s f') with
                                                | [x; y] => (same_instance v x && sp_observed (spec_of (r_g s)) y) || (same_instance v y && sp_observed (spec_of (r_g s)) x)
                                                | _ => false
                                                end) (g_all (r_g s))
                    | _ => true
                    end) (concat (tunable_clusters s)).
Lemma exposedb_ok s : exposedb s = true -> exposed s.
Proof.
  unfold exposedb. rewrite forallb_forall. intros Q c f v Jc Jf Fv. specialize (Q f). rewrite Fv in Q.
  assert (J : In f (concat (tunable_clusters s))) by (apply in_concat; eauto). apply Q in J. apply existsb_exists in J as (f' & J & X).
  destruct (f_vars (r_h s f')) as [|x [|y [|z l]]] eqn:E; try discriminate. apply orb_true_iff in X as [X|X]; apply andb_true_iff in X as [X1 X2];
  apply same_instance_spec in X1; subst; eexists f', _; (split; [exact J|split; [rewrite E; eauto|unfold unobserved; congruence]]).
Qed.
Definition hidden_forestb (c : crf (N:=QcNum)) : bool := symmetricb (factors c) (content c) && forestb (factors c) (content c).
Lemma hidden_forestb_ok c : creach c -> hidden_forestb c = true -> hidden_forest c.
Proof.
  intros R Q. apply andb_true_iff in Q as [Q1 Q2]. split. apply (symmetricb_ok QcNum_ok); auto. intros v _. apply (forestb_ok (factors c)); auto.
  eapply NoDup_map_inv. apply (sh_vars _ _ (ci_shape _ (creach_inv c R))).
Qed.
Definition usableb (c : crf (N:=QcNum)) (samples : list (list nat)) : bool := usable_setb (c_r c) samples.
Lemma usableb_ok c samples : usableb c samples = true -> usable c samples.
Proof. apply usable_setb_ok. Qed.
Definition givenb (c : crf (N:=QcNum)) (samples : list (list nat)) : bool := forallb (fun x => positiveb (weight (factors c) (content c)) (given (content c) x)) samples.
Lemma givenb_ok c samples : givenb c samples = true -> forall x, In x samples -> positive (weight (factors c) (content c)) (given (content c) x).
Proof. unfold givenb. rewrite forallb_forall. intros Q x J. apply positiveb_ok. auto. Qed.
Definition cformula (c : crf (N:=QcNum)) (samples : list (list nat)) : list QcNum :=
  map (fun l => (mean (g_vars (graph_of c)) samples (features (factors c) l) - mean_expected (factors c) (content c) samples (features (factors c) l))%num) (tunable_clusters (c_r c)).

(** {1 The theorem applies} *)
Notation a_crf := (crf_of (crf_ctor env_id a_field true)).
Definition a_set : titer := mkTI [[0; 1; 0; 1; 1]; [0; 0; 1; 1; 0]; [1; 0; 1; 2; 0]] (Some [0; 2]).
Definition a_samples : list (list nat) := [[0; 1; 0; 1; 1]; [1; 0; 1; 2; 0]].
(** a gradient, then a change of the weights *)
Notation a_once := (cafter a_crf (CGradient (fun _ => env_id) a_set 2)).
Notation a_crf' := (cafter a_once (CWeights [q 1 3; q 1 1; q 2 1])).
Lemma a_lives : clives true a_crf'.
Proof.
  assert (R0 : clives false a_crf).
  { destruct (crf_of_made env_id a_field true) as [s Q]. vm_compute; reflexivity. eapply CL_field; [apply aH_built|apply a_reach|apply env_id_ok|exact Q]. }
  assert (R1 : clives false a_once).
  { apply (cafter_lives false a_crf (CGradient (fun _ => env_id) a_set 2)); [exact R0|intros k; apply env_id_ok|simpl; lia|vm_compute; reflexivity]. }
  apply (cafter_lives false a_once (CWeights [q 1 3; q 1 1; q 2 1])); [exact R1|exact Logic.I|apply exposedb_ok; vm_compute; reflexivity|vm_compute; reflexivity].
Qed.
Lemma a_forest : hidden_forest a_crf'.
Proof. apply hidden_forestb_ok. apply (clives_creach true). exact a_lives. vm_compute. reflexivity. Qed.
Lemma a_positions : same_positions a_crf' (fun _ => env_id).
Proof.
  intros k. assert (E1 : c_pos a_crf' = [3; 4]) by (vm_compute; reflexivity). assert (E2 : observed_variables env_id (graph_of a_crf') = [exB; exC]) by (vm_compute; reflexivity).
  assert (E3 : g_vars (graph_of a_crf') = [exD; exE; exA; exB; exC]) by (vm_compute; reflexivity). rewrite E1, E2, E3. repeat constructor.
Qed.
(** the positions of B and C in the list of the variables of the source, kept after the two calls *)
Example C51_positions_example : Forall2 (fun i v => nth_error [exD; exE; exA; exB; exC] i = Some v) (c_pos a_crf') [exB; exC] /\ same_positions a_crf' (fun _ => env_id).
Proof.
  destruct (crf_of_made env_id a_field true) as [s Q]. vm_compute; reflexivity.
  assert (L : later a_crf a_crf').
  { apply (L_call a_crf a_once env_id (CWeights [q 1 3; q 1 1; q 2 1]) (ccall env_id (c_pos a_once) (CWeights [q 1 3; q 1 1; q 2 1]) (c_r a_once))); [|exact Logic.I|exact env_id_ok|reflexivity|].
    - apply (L_call a_crf a_crf env_id (CGradient (fun _ => env_id) a_set 2) (ccall env_id (c_pos a_crf) (CGradient (fun _ => env_id) a_set 2) (c_r a_crf))); [apply L_same|intros k; exact env_id_ok|exact env_id_ok|reflexivity|].
      assert (G : cgood a_crf (CGradient (fun _ => env_id) a_set 2) = true) by (vm_compute; reflexivity). unfold cgood in G. destruct (ccall _ _ _ _) as [a t|t| | |]; try discriminate G. reflexivity.
    - assert (G : cgood a_once (CWeights [q 1 3; q 1 1; q 2 1]) = true) by (vm_compute; reflexivity). unfold cgood in G. destruct (ccall _ _ (CWeights _) _) as [a t|t| | |]; try discriminate G. reflexivity. }
  destruct (C51_positions aH 6 a_field env_id true a_crf s a_crf' aH_built a_reach env_id_ok Q L) as [P1 P2].
  assert (V : g_vars (r_g a_field) = [exD; exE; exA; exB; exC]) by (vm_compute; reflexivity). assert (O : observed_order env_id (r_g a_field) = [exB; exC]) by (vm_compute; reflexivity).
  split. rewrite V, O in P1. exact P1. apply P2. rewrite V. vm_compute; reflexivity. intros _. rewrite O. vm_compute; reflexivity.
Qed.
Example C51_example : exists g s', gradient (fun _ => env_id) a_set 3 a_crf' = Ret g s' /\ length g = 3.
Proof.
  destruct (C51_gradient_formula_partial QcNum_ok a_crf' true (fun _ => env_id) a_set 3 a_samples a_lives (fun _ => env_id_ok) a_positions) as (g & s' & Q1 & Q2 & _).
  - lia.
  - exact a_forest.
  - reflexivity.
  - apply usableb_ok. vm_compute. reflexivity.
  - apply givenb_ok. vm_compute. reflexivity.
  - exists g, s'. split; [exact Q1|]. rewrite Q2. vm_compute. reflexivity.
Qed.
Example C51_example_values : ranswers (gradient (fun _ => env_id) a_set 1 a_crf') (cformula a_crf' a_samples) = true /\
  tunable_clusters (c_r a_crf') = [[7]; [8; 9]; [10]] /\ existsb (fun x => neqb x n0) (cformula a_crf' a_samples) = false.
Proof. split; [|split]; vm_compute; reflexivity. Qed.

(** {1 The statement does not hold for every field} *)
Definition wrong_crf (c : crf (N:=QcNum)) (es : nat -> env) : Prop :=
  exists it samples n g s', creach c /\ (forall k, env_ok (es k)) /\ 1 <= n /\ hidden_forest c /\ iter_samples it = Ok samples /\ usable c samples /\
    (forall x, In x samples -> positive (weight (factors c) (content c)) (given (content c) x)) /\
    gradient es it n c = Ret g s' /\ g <> cformula c samples.
Lemma wrong_crf_intro c e samples : creach c -> env_ok e -> hidden_forestb c = true -> usableb c samples = true -> givenb c samples = true ->
  (let o := gradient (fun _ => e) (mkTI samples None) 1 c in negb (rthrew o) && rdone o && negb (ranswers o (cformula c samples))) = true -> wrong_crf c (fun _ => e).
Proof.
  intros R E F U G Q. apply andb_true_iff in Q as [Q1 Q2]. apply negb_true_iff in Q2. destruct (ranswers_different _ _ Q1 Q2) as (g & s' & E1 & E2).
  exists (mkTI samples None), samples, 1, g, s'. split; [exact R|]. split; [intros _; exact E|]. split; [exact (le_n 1)|]. split; [apply hidden_forestb_ok; auto|].
  split; [reflexivity|]. split; [apply usableb_ok; auto|]. split; [apply givenb_ok; auto|]. split; auto.
Qed.

(** the set of the observed variables is visited in another order than the map *)
Definition env_obs : env := mkEnv (fun t l => if t =? 6 then rev l else l) (fun _ l => l).
Lemma env_obs_ok : env_ok env_obs.
Proof. split; intros t l; simpl. destruct (t =? 6). apply Permutation_sym, Permutation_rev. apply Permutation_refl. apply Permutation_refl. Qed.

(** the positions are found in the order of [getObservedVariables()], which is not the
    one of the map of the evidences: the values of the two variables are swapped *)
Notation swapped_crf := (crf_of (crf_ctor env_obs a_field true)).
Theorem C51_positions_refuted : exists (c : crf (N:=QcNum)) e, wrong_crf c (fun _ => e).
Proof.
  exists swapped_crf, env_obs. apply wrong_crf_intro with (samples := [[0; 1; 0; 1; 0]; [1; 0; 1; 1; 0]]).
  - destruct (crf_of_made env_obs a_field true) as [s Q]. vm_compute; reflexivity. eapply CR_field; [apply aH_built|apply a_reach|apply env_obs_ok|exact Q].
  - exact env_obs_ok.
  - vm_compute. reflexivity.
  - vm_compute. reflexivity.
  - vm_compute. reflexivity.
  - vm_compute. reflexivity.
Qed.

(** the positions are those of the variables of the source, and the constant factors
    are absorbed before the tunable ones: when the source got a tunable factor first,
    the training set is read at the wrong positions, whatever the orders of the sets
    and maps *)
Definition l_tale : list (rop (N:=QcNum)) := [RTun (Some 1) None; RTun (Some 2) None; RConst (Some 4); RGraph (OSet exC 1)].
Notation l_field := (rruns (r_empty aH 6) l_tale).
Notation l_crf := (crf_of (crf_ctor env_id l_field true)).
Theorem C51_source_order_refuted : exists (c : crf (N:=QcNum)) e, wrong_crf c (fun _ => e) /\ observed_variables e (graph_of c) = observed_order e (graph_of c).
Proof.
  exists l_crf, env_id. split. apply wrong_crf_intro with (samples := [[1; 0; 0; 0]; [1; 1; 1; 1]]).
  - destruct (crf_of_made env_id l_field true) as [s Q]. vm_compute; reflexivity. eapply CR_field; [apply aH_built| |apply env_id_ok|exact Q].
    apply rruns_reach. intros; exact Logic.I. constructor. vm_compute. reflexivity.
  - exact env_id_ok.
  - vm_compute. reflexivity.
  - vm_compute. reflexivity.
  - vm_compute. reflexivity.
  - vm_compute. reflexivity.
  - vm_compute. reflexivity.
Qed.

(** a weight on E, which has no observed neighbour: the gradient after a change of the
    weight is the one of the old weight, in part *)
Definition b_tale : list (rop (N:=QcNum)) := [RConst (Some 4); RTun (Some 1) None; RTun (Some 2) None; RTun (Some 5) None; RGraph (OSet exC 1)].
Notation b_field := (rruns (r_empty aH 6) b_tale).
Notation b_crf := (crf_of (crf_ctor env_id b_field true)).
Definition b_set : list (list nat) := [[0; 1; 0; 1]; [1; 0; 1; 0]].
Notation b_once := (cafter b_crf (CGradient (fun _ => env_id) (mkTI b_set None) 1)).
Notation b_crf' := (cafter b_once (CWeights [q 2 1; q 1 1; q 5 1])).
Theorem C51_stale_weights_refuted : exists (c : crf (N:=QcNum)) e, wrong_crf c (fun _ => e) /\ same_positions c (fun _ => e).
Proof.
  exists b_crf', env_id. split. apply wrong_crf_intro with (samples := b_set).
  - apply (cafter_reach b_once (CWeights [q 2 1; q 1 1; q 5 1])). 2:exact Logic.I. 2:{ vm_compute. reflexivity. }
    apply (cafter_reach b_crf (CGradient (fun _ => env_id) (mkTI b_set None) 1)). 2:{ intros k. apply env_id_ok. } 2:{ vm_compute. reflexivity. }
    destruct (crf_of_made env_id b_field true) as [s Q]. vm_compute; reflexivity. eapply CR_field; [apply aH_built| |apply env_id_ok|exact Q].
    apply rruns_reach. intros; exact Logic.I. constructor. vm_compute. reflexivity.
  - exact env_id_ok.
  - vm_compute. reflexivity.
  - vm_compute. reflexivity.
  - vm_compute. reflexivity.
  - vm_compute. reflexivity.
  - intros k. assert (E1 : c_pos b_crf' = [2]) by (vm_compute; reflexivity). assert (E2 : observed_variables env_id (graph_of b_crf') = [exC]) by (vm_compute; reflexivity).
    assert (E3 : g_vars (graph_of b_crf') = [exD; exE; exC; exA]) by (vm_compute; reflexivity). rewrite E1, E2, E3. repeat constructor.
Qed.
Print Assumptions C51_positions_refuted.
Print Assumptions C51_source_order_refuted.
Print Assumptions C51_stale_weights_refuted.

(** {1 A conditional random field over the reals}

    A correlating exponential factor on A and C with weight 1; C is observed. *)
Section RealExample.
  Lemma ltb_exp x : R_ltb (exp x) R0 = false.
  Proof. unfold R_ltb. destruct (Rlt_dec (exp x) R0) as [L|]; auto. pose proof (exp_pos x) as P. exfalso. apply (Rlt_asym _ _ L P). Qed.
  Ltac rcompute := repeat (lazy -[R_ltb R_eqb exp Rplus Rmult Rdiv Rminus Rinv Ropp]; rewrite ?ltb_exp).

  Definition plain : func RNum := match factor_correlated (N:=RNum) gAC with Ok f => f | _ => mkFunc gAC (mkInfo [] 0 0) (Sparse []) None end.
  Definition rfac : func RNum := match exp_ctor plain R1 with Ok f => f | _ => plain end.
  Lemma plain_ok : factor_correlated (N:=RNum) gAC = Ok plain.
  Proof. lazy -[R_ltb R_eqb exp Rplus Rmult Rdiv Rminus Rinv Ropp]. reflexivity. Qed.
  Lemma rfac_ok : exp_ctor plain R1 = Ok rfac.
  Proof. lazy -[R_ltb R_eqb exp Rplus Rmult Rdiv Rminus Rinv Ropp]. reflexivity. Qed.
  Lemma rfac_built : built rfac.
  Proof. eapply b_exp; [| |exact rfac_ok]. eapply b_corr; [exact gAC_built|exact plain_ok]. reflexivity. Qed.
  Notation real_source := (rruns (r_empty (fun _ => rfac) 1) [RTun (Some 0) None; RGraph (OSet exC 1)]).
  Lemma real_sane : rsane [RTun (Some 0) None; RGraph (OSet exC 1)] (r_empty (fun _ => rfac) 1) = true.
  Proof. rcompute. reflexivity. Qed.
  Lemma real_made : exists c s, crf_ctor env_id real_source false = Ret c s /\ g_vars (graph_of c) = [exA; exC] /\ g_all (graph_of c) = [0] /\
    factors c = (fun _ => rfac) /\ get_weights (c_r c) = Ok [1%R] /\ c_pos c = [1] /\ observed_variables env_id (graph_of c) = [exC] /\
    tunable_clusters (c_r c) = [[0]] /\ sp_ev (content c) ("C"%string, 2) <> None.
  Proof.
    eexists _, _. split. rcompute. reflexivity.
    splits; rcompute; try reflexivity. discriminate.
  Qed.
  Example C51_real_example : exists (c : crf (N:=RNum)) g s', g_vars (graph_of c) = [exA; exC] /\
    gradient (fun _ => env_id) (mkTI [[0; 0]; [0; 1]; [1; 1]] None) 2 c = Ret g s' /\ length g = 1 /\
    forall d, nth_error g 0 = Some d ->
      derivable_pt_lim (fun t => cond_loglik (with_weights (fun _ => rfac) [[0]] [t]) (content c) [[0; 0]; [0; 1]; [1; 1]]) 1 d.
  Proof.
    destruct real_made as (c & s & MK & V & A & E & GW & CP & OV & TC & EV). exists c.
    assert (RR : clives false c).
    { assert (RR : rreach (fun _ => rfac) 1 any real_source) by (apply rruns_reach; [exact (fun _ _ => Logic.I)|constructor|exact real_sane]). apply (CL_field (fun _ => rfac) 1 real_source env_id false c s (fun _ => rfac_built) RR env_id_ok MK). }
    destruct (C51_gradient_is_derivative_partial c false (fun _ => env_id) (mkTI [[0; 0]; [0; 1]; [1; 1]] None) 2 [[0; 0]; [0; 1]; [1; 1]] [1%R] RR)
      as (g & s' & Q1 & Q2 & Q3).
    - intros k. apply env_id_ok.
    - intros k. rewrite CP, OV, V. repeat constructor.
    - lia.
    - assert (HC : forall v, BeliefSpec.hidden (content c) v -> v = exA).
      { intros v [J H]. change (sp_vars (content c)) with (g_vars (graph_of c)) in J. rewrite V in J. destruct J as [<-|[<-|[]]]; auto. exfalso. apply EV. exact H. }
      split.
      + intros k v w [_ Q] Hv Hw. apply HC in Hv. apply HC in Hw. subst. unfold fv in Q. rewrite E in Q. change (f_vars rfac) with [exA; exC] in Q. destruct Q as [Q|Q]; discriminate Q.
      + intros v Hv (l & (L3 & NDl & R) & LK). destruct l as [|x [|y l]]; simpl in L3; try lia. destruct (R 0 x y) as (H1 & H2 & _); auto.
        apply HC in H1. apply HC in H2. subst. inversion NDl as [|? ? NI]; subst. apply NI. left; auto.
    - reflexivity.
    - apply usable_setb_ok. unfold usable_setb. unfold graph_of in V. rewrite V. reflexivity.
    - intros x _. rewrite E. unfold weight. change (sp_facs (content c)) with (g_all (graph_of c)). rewrite A. cbn [prodL fold_right map]. apply R_ltb_spec.
      apply (ok_mul RNum RNum_ok). unfold fval, transform. change (f_exp rfac) with (Some 1%R). apply R_ltb_spec. apply exp_pos. apply R_ltb_spec. apply Rlt_0_1.
    - exact GW.
    - exists g, s'. split; auto. split; auto. split; auto. intros d Hd. specialize (Q3 0 1%R d eq_refl Hd). rewrite E, TC in Q3. exact Q3.
  Qed.
End RealExample.
