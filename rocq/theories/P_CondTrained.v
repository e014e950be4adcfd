(** The answers of a conditional random field that was trained (C62): once the
    evidences are set, the marginals and the most probable values of the hidden variables are
    the ones of the weights left by the training, given the evidences. *)
From Coq Require Import String List Arith Bool Lia Permutation Relations QArith Qcanon.
From Verif Require Import Res Num Categoric Combs Func FuncProofs GroupProofs FactorProofs FactorApi Special SpecialProofs
  Graph GraphLemmas Clusters Belief Query Gibbs GraphInv EvidInv BeliefInv BigOp Tree Cycle BPStep BPRun GraphSpec Hist P_Graph BeliefSpec Sums Exact BeliefHist Queries
  Parts JointSpec Joint P_Joint GibbsProofs Train TrainHist Coherent TrainSpec Gradient TrainInv GradientRun P_Categoric P_Factor Demo BeliefDemo TrainDemo P_Train P_Gradient P_GradientDemo
  CRF CRFHist CRFInv CRFSpec CRFGradient P_CRF P_CRFGradient P_CRFDemo P_CRFGradientDemo Trainer TrainerSpec TrainerProofs P_Trainer P_TrainerDemo.
Import ListNotations.
Open Scope nat_scope.

Section Trained.
  Context {N : num} (OK : num_ok N).
  Notation rst := (rst (N:=N)).
  Notation crf := (crf (N:=N)).
  Notation trainer := (trainer (N:=N)).
  Notation hidden := BeliefSpec.hidden.
  Implicit Types s : rst.

  Lemma after_training c b ws (t : trainer) es floorf rand combs info :
    clives b c -> exposed (c_r c) -> crf_trainable c combs -> (forall i k, env_ok (es i k)) -> (forall i, same_positions c (es i)) ->
    1 <= info_threads info -> P_CRFGradient.usable c combs -> enough floorf (info_percentage info) (length combs) -> get_weights (c_r c) = Ok ws ->
    let r := ideal_training (length (tunable_clusters (c_r c)))
               (fun k => cond_gradient (factors c) (content c) (tunable_clusters (c_r c)) (drawn floorf rand combs (info_percentage info) k)) t 0 ws in
    let F := with_weights (factors c) (tunable_clusters (c_r c)) (fst r) in
    exists s', train_crf floorf rand es (c_pos c) t combs info (c_r c) = (if snd r then Ret tt s' else Thr s') /\
      forall e values s, env_ok e -> set_evidences e values s' = Ret tt s -> let A := spec_of (r_g s) in
        frozen (c_r c) s /\ coh True s /\ (forall f, r_h s f = F f) /\ (forall v, hidden A v <-> hidden (content c) v) /\
        Queries.usable (r_h s) A (r_g s) /\ symmetric (r_h s) A /\ (forall v, hidden A v -> tree_around (r_h s) A v).
  Proof.
    intros R EX [TW TR] E SP L [NE V] P GW r F. pose proof (clives_full b c R) as [FR T EN]. pose proof (clives_creach b c R) as CR.
    apply fresh_weak in FR.
    destruct (train_crf_ok OK (c_r c) es (c_pos c) floorf rand t combs info ws FR T EN EX E (fun i => same_order c (es i) CR (E i) (SP i)) (creach_some c CR) GW L TW TR V
      (iterators OK floorf rand combs info NE P) NE) as (s' & Q1 & Q2 & Q3).
    exists s'. split. exact Q1. intros e values s Ee Qs A.
    pose proof (cs_weak _ _ _ Q2) as WK. pose proof (weak_cinv [] s' WK) as CI.
    pose proof (set_evidences_weak e values s' WK Ee) as X. rewrite Qs in X. destruct X as [C LA].
    pose proof (set_evidences_cst e values s' CI Ee) as Y. rewrite Qs in Y. destruct Y as [_ FZ].
    pose proof (frozen_trans _ _ _ (cs_frozen _ _ _ Q2) FZ) as FZ0.
    assert (HH : r_h s = r_h s').
    { pose proof (set_evidences_ok e values s' (ci_shape _ CI) (cinv_good _ CI) Ee) as Z. rewrite Qs in Z. destruct (_ =? _); [|discriminate].
      destruct Z as (g & Z & _). destruct (forallb _ _); [|discriminate]. injection Z as ->. reflexivity. }
    assert (HF : forall f, r_h s f = F f) by (intros f; rewrite HH; apply Q2).
    assert (EV : evidence_order e (r_g s') <> []).
    { intros Z. destruct (creach_some c CR) as (a & O). assert (O' : g_ev (r_g s') a <> None) by (intros O2; apply O; apply (fz_obs _ _ (cs_frozen _ _ _ Q2)); exact O2).
      destruct (g_ev (r_g s') a) as [k|] eqn:Ek; [|congruence].
      assert (J : In a (evidence_order e (r_g s'))). { unfold evidence_order. apply ord_In; auto. apply keys_In. split; eauto. eapply shape_lt; eauto. apply (ci_shape _ CI). }
      rewrite Z in J. destruct J. }
    assert (PL : g_pool (r_g s) = Some 1). { pose proof (set_evidences_en e values s' Q3) as Z. rewrite Qs in Z. exact Z. }
    assert (HI : forall v, hidden A v <-> hidden (content c) v) by (intros v; apply hidden_frozen; exact FZ0).
    pose proof (coh_abs True s C) as AB. fold A in AB.
    split. exact FZ0. split. exact C. split. exact HF. split. exact HI. split; [|split].
    - split; [apply C|exact AB|apply C; exact Logic.I|split; [exact PL|]]. intros r0 El. rewrite (LA EV) in El. discriminate.
    - destruct (TW (fst r) (cs_len _ _ _ Q2)) as [SY _].
      intros f v1 v2 [J1 J2] H1 H2. unfold fv in *. apply HI in H1. apply HI in H2. rewrite HF in *. apply (SY f v1 v2); auto. split; auto.
      change (In f (g_all (r_g (c_r c)))). rewrite <- (fz_all _ _ FZ0). exact J1.
    - intros v Hv. eapply tree_ext; [| | |apply (TR v); apply HI; exact Hv]. intros f. rewrite HF. unfold F. rewrite ww_vars. reflexivity.
      symmetry. apply FZ0. intros w. symmetry. apply HI.
  Qed.

  (** The full property has no hypothesis on cycles, on the tunable factors and on the
      factors between hidden variables: here the ones of [C52_crf_partial] are kept. The evidences
      given after the training are possible for the trained weights. *)
  Theorem C62_conditional_partial : forall c b ws (t : trainer) es floorf rand combs info,
    clives b c -> exposed (c_r c) -> crf_trainable c combs -> (forall i k, env_ok (es i k)) -> (forall i, same_positions c (es i)) ->
    1 <= info_threads info -> P_CRFGradient.usable c combs -> enough floorf (info_percentage info) (length combs) -> get_weights (c_r c) = Ok ws ->
    let r := ideal_training (length (tunable_clusters (c_r c)))
               (fun k => cond_gradient (factors c) (content c) (tunable_clusters (c_r c)) (drawn floorf rand combs (info_percentage info) k)) t 0 ws in
    let F := with_weights (factors c) (tunable_clusters (c_r c)) (fst r) in
    exists s', train_crf floorf rand es (c_pos c) t combs info (c_r c) = (if snd r then Ret tt s' else Thr s') /\
      forall e values s, env_ok e -> set_evidences e values s' = Ret tt s -> let A := spec_of (r_g s) in
        sp_vars A = g_vars (graph_of c) /\ sp_facs A = g_all (graph_of c) /\ (forall v, hidden A v <-> hidden (content c) v) /\
        (positive (weight F A) A -> forall e' n v, env_ok e' -> 1 <= n -> hidden A v ->
          (exists g, get_marginal (r_h s) e' v n (r_g s) = Ret (map (marginal (weight F A) A v) (seq 0 (vsize v))) g) /\
          (above_floor F A -> exists j g, get_map (r_h s) e' v n (r_g s) = Ret j g /\
            (exists x, most_probable (weight F A) A x /\ val x v = j) /\ (forall x, most_probable (weight F A) A x -> j <= val x v))).
  Proof.
    intros c b ws t es floorf rand combs info R EX TN E SP L US P GW r F.
    destruct (after_training c b ws t es floorf rand combs info R EX TN E SP L US P GW) as (s' & Q1 & Q2).
    exists s'. split. exact Q1. intros e values s Ee Qs A. destruct (Q2 e values s Ee Qs) as (FZ0 & C & HF & HI & U & SY' & TR0). fold r F A in HF, HI, U, SY', TR0.
    split. apply FZ0. split. apply FZ0. split. exact HI. intros PO e' n v Ee' Ln Hv. pose proof (TR0 v Hv) as TR'. pose proof (coh_abs True s C) as AB. fold A in AB.
    pose proof (coh_good OK True s C) as HG.
    assert (EX' : forall x, In x (all_asg (sp_vars A)) -> weight_swapped (r_h s) A x = weight F A x).
    { intros x J. rewrite (symmetric_weight (r_h s) (r_g s) A x); auto. apply weight_ext. exact HF. apply (ch_inv _ _ C). }
    assert (PW : positive (weight_swapped (r_h s) A) A). { eapply Queries.positive_ext; [|exact PO]. intros x J. symmetry. apply EX'. auto. }
    split.
    - destruct (marginal_exact OK (r_h s) HG A e' n (r_g s) v U Ee' Ln (symmetric_balanced (r_h s) A SY')) as [g Qm]; auto.
      exists g. rewrite Qm. f_equal. apply map_ext. intros j. apply marginal_ext. auto.
    - intros AF. assert (AF' : above_floor (r_h s) A).
      { intros f v1 v2 I1 I2 I3 I4 i j. unfold fv in *. rewrite HF. apply (AF f v1 v2); auto. unfold fv. rewrite <- I2, HF. auto. }
      destruct (map_hidden OK (r_h s) HG A e' n (r_g s) v U Ee' Ln (symmetric_balanced (r_h s) A SY')) as (j & g & Qm & Bj); auto.
      exists j, g. split; auto. apply (best_ext _ (weight F A)) in Bj; auto.
  Qed.

  (** the same for the joint distributions *)
  Theorem C62_conditional_joint_partial : forall c b ws (t : trainer) es floorf rand combs info,
    clives b c -> exposed (c_r c) -> crf_trainable c combs -> (forall i k, env_ok (es i k)) -> (forall i, same_positions c (es i)) ->
    1 <= info_threads info -> P_CRFGradient.usable c combs -> enough floorf (info_percentage info) (length combs) -> get_weights (c_r c) = Ok ws ->
    let r := ideal_training (length (tunable_clusters (c_r c)))
               (fun k => cond_gradient (factors c) (content c) (tunable_clusters (c_r c)) (drawn floorf rand combs (info_percentage info) k)) t 0 ws in
    let F := with_weights (factors c) (tunable_clusters (c_r c)) (fst r) in
    exists s', train_crf floorf rand es (c_pos c) t combs info (c_r c) = (if snd r then Ret tt s' else Thr s') /\
      forall e values s, env_ok e -> set_evidences e values s' = Ret tt s -> let A := spec_of (r_g s) in
        positive (weight F A) A -> forall e' n g, env_ok e' -> 1 <= n -> wf_group g -> g_soup g <> [] -> (forall v, In v (g_soup g) -> In v (sp_vars A)) ->
          joined_inside F A (g_soup g) -> one_observed A (g_soup g) ->
          exists f g', get_joint (r_h s) e' g n (r_g s) = Ret f g' /\ f_vars f = g_soup g /\
            exists k, (n0 < k)%num /\ forall l, valid_comb (map vsize (g_soup g)) l -> fval f l = (k * mass (weight F A) A (takes_all (g_soup g) l))%num.
  Proof.
    intros c b ws t es floorf rand combs info R EX TN E SP L US P GW r F.
    destruct (after_training c b ws t es floorf rand combs info R EX TN E SP L US P GW) as (s' & Q1 & Q2).
    exists s'. split. exact Q1. intros e values s Ee Qs A PO e' n g Ee' Ln WG NE KN JI OO.
    destruct (Q2 e values s Ee Qs) as (FZ0 & C & HF & HI & U & SY' & TR0). fold r F A in HF, HI, U, SY', TR0.
    pose proof (coh_good OK True s C) as HG.
    assert (WE : forall x, weight (r_h s) A x = weight F A x) by (intros x; apply weight_ext; exact HF).
    assert (PO' : positive (weight (r_h s) A) A). { eapply Queries.positive_ext; [|exact PO]. intros x J. symmetry. apply WE. }
    assert (EE : forall v w, hidden_edge F A v w -> hidden_edge (r_h s) A v w).
    { intros v w X. eapply edge_ext; [| | |exact X]; try reflexivity. intros f. rewrite HF. reflexivity. }
    assert (EE' : forall v w, hidden_edge (r_h s) A v w -> hidden_edge F A v w).
    { intros v w X. eapply edge_ext; [| | |exact X]; try reflexivity. intros f. rewrite HF. reflexivity. }
    assert (JI' : joined_inside (r_h s) A (g_soup g)).
    { intros v w Jv Jw HL. assert (HL' : hidden_linked F A v w) by (clear - HL EE'; induction HL; [apply rt_step; auto|apply rt_refl|eapply rt_trans; eauto]).
      specialize (JI v w Jv Jw HL'). clear - JI EE. induction JI as [x y [X Y]| |]; [apply rt_step; split; auto|apply rt_refl|eapply rt_trans; eauto]. }
    destruct (joint_exact OK (r_h s) HG A e' n (r_g s) g U Ee' Ln SY' PO' WG NE KN (fun v _ => TR0 v) JI' OO) as (f & g' & Q & _ & Gf & _ & k & Pk & V).
    exists f, g'. split; auto. split; [unfold f_vars; rewrite Gf; auto|]. exists k. split; auto. intros l Vl. rewrite (V l Vl). f_equal. apply mass_ext. intros x _. apply WE.
  Qed.
End Trained.
Print Assumptions C62_conditional_partial.
Print Assumptions C62_conditional_joint_partial.

(** the conditional random field of the example of C52, trained and then observed *)
Notation a_trained := (rafter (c_r a_crf') (train_crf qfloor t_rand (fun _ _ => env_id) (c_pos a_crf') (descent (q 1 2) 1) a_combs (mkTrainInfo 2 n1) (c_r a_crf'))).
Definition returned {S A} (o : out S A) : bool := match o with Ret _ _ => true | _ => false end.
Definition a_values : list nat := map (fun _ => 1) (evidence_order env_id (r_g (c_r a_crf'))).
Notation a_told := (rafter a_trained (set_evidences env_id a_values a_trained)).
Notation a_ideal := (ideal_training (length (tunable_clusters (c_r a_crf'))) (fun k => cond_gradient (factors a_crf') (content a_crf') (tunable_clusters (c_r a_crf')) (drawn qfloor t_rand a_combs (info_percentage (mkTrainInfo 2 n1)) k)) (descent (q 1 2) 1) 0 a_weights).
Notation a_fac := (with_weights (factors a_crf') (tunable_clusters (c_r a_crf')) (fst a_ideal)).
Lemma returned_after (s : rst (N:=QcNum)) (o : out (rst (N:=QcNum)) unit) : returned o = true -> o = Ret tt (rafter s o).
Proof. destruct o as [[] ?|?| | |]; simpl; intros Q; first [reflexivity|discriminate Q]. Qed.
Example C62_conditional_example : exists g, get_marginal (r_h a_told) env_rev exD 2 (r_g a_told) =
  Ret (map (marginal (weight a_fac (spec_of (r_g a_told))) (spec_of (r_g a_told)) exD) (seq 0 (vsize exD))) g.
Proof.
  assert (GW : get_weights (c_r a_crf') = Ok a_weights) by (vm_compute; reflexivity).
  destruct (C62_conditional_partial QcNum_ok a_crf' true a_weights (descent (q 1 2) 1) (fun _ _ => env_id) qfloor t_rand a_combs (mkTrainInfo 2 n1) a_lives) as (s' & E1 & E2); try exact GW.
  - apply exposedb_ok. vm_compute. reflexivity.
  - apply crf_trainableb_ok. apply (clives_creach true). exact a_lives. vm_compute. reflexivity.
  - intros _ _. apply env_id_ok.
  - intros _. exact a_positions.
  - simpl. lia.
  - apply usableb_ok. vm_compute. reflexivity.
  - left. reflexivity.
  - assert (ES : s' = a_trained).
    { match type of E1 with _ = (if ?b then _ else _) => assert (X : b = true) by (vm_compute; reflexivity); rewrite X in E1 end. rewrite E1. reflexivity. }
    rewrite ES in E2. destruct (E2 env_id a_values a_told env_id_ok) as (_ & _ & _ & E3).
    + apply returned_after. vm_compute. reflexivity.
    + refine (proj1 (E3 _ env_rev 2 exD env_rev_ok (le_S _ _ (le_n 1)) _)).
      apply positiveb_ok. vm_compute. reflexivity. apply hiddenb_ok. vm_compute. reflexivity.
Qed.
(** the training changes the answer *)
Example C62_conditional_values :
  neqb (marginal (weight a_fac (spec_of (r_g a_told))) (spec_of (r_g a_told)) exD 0)
       (marginal (weight (factors a_crf') (spec_of (r_g a_told))) (spec_of (r_g a_told)) exD 0) = false.
Proof. vm_compute. reflexivity. Qed.
Example C62_conditional_joint_example : exists f g, get_joint (r_h a_told) env_rev (mkGroup [exD; exE] [exD; exE]) 2 (r_g a_told) = Ret f g /\ f_vars f = [exD; exE].
Proof.
  assert (GW : get_weights (c_r a_crf') = Ok a_weights) by (vm_compute; reflexivity).
  destruct (C62_conditional_joint_partial QcNum_ok a_crf' true a_weights (descent (q 1 2) 1) (fun _ _ => env_id) qfloor t_rand a_combs (mkTrainInfo 2 n1) a_lives) as (s' & E1 & E2); try exact GW.
  - apply exposedb_ok. vm_compute. reflexivity.
  - apply crf_trainableb_ok. apply (clives_creach true). exact a_lives. vm_compute. reflexivity.
  - intros _ _. apply env_id_ok.
  - intros _. exact a_positions.
  - simpl. lia.
  - apply usableb_ok. vm_compute. reflexivity.
  - left. reflexivity.
  - assert (ES : s' = a_trained).
    { match type of E1 with _ = (if ?b then _ else _) => assert (X : b = true) by (vm_compute; reflexivity); rewrite X in E1 end. rewrite E1. reflexivity. }
    rewrite ES in E2. destruct (E2 env_id a_values a_told env_id_ok) with (e' := env_rev) (n := 2) (g := mkGroup [exD; exE] [exD; exE]) as (f & g & Q & V & _).
    + apply returned_after. vm_compute. reflexivity.
    + apply positiveb_ok. vm_compute. reflexivity.
    + exact env_rev_ok.
    + exact (le_S _ _ (le_n 1)).
    + split; [|apply Permutation_refl]. vm_compute. repeat (constructor; [simpl; intuition discriminate|]). constructor.
    + intros Z. inversion Z.
    + intros v J. assert (Z : forallb (hiddenb (spec_of (r_g a_told))) [exD; exE] = true) by (vm_compute; reflexivity).
      rewrite forallb_forall in Z. apply Z in J. apply hiddenb_ok in J. exact (proj1 J).
    + apply joinedb_ok. vm_compute. reflexivity.
    + apply one_observedb_ok. vm_compute. reflexivity.
    + exists f, g. split. exact Q. exact V.
Qed.
