(** The answers of a random field that was just trained (C62): the marginals and
    the most probable values are the ones of the weights left by the training,
    whatever was propagated before and during it.

    What is asked of the trained model is compared with sums over the assignments of
    its variables ([weight], [marginal] of BeliefSpec.v), where the factors have the
    weights ended with by the ideal training of TrainerSpec.v. *)
From Coq Require Import String List Arith Bool Lia Permutation Relations QArith Qcanon.
From Verif Require Import Res Num Categoric Combs Func FuncProofs GroupProofs FactorProofs FactorApi Special SpecialProofs
  Graph GraphLemmas Clusters Belief Query Gibbs GraphInv EvidInv BeliefInv BigOp Tree Cycle BPStep BPRun GraphSpec Hist P_Graph BeliefSpec Sums Exact BeliefHist Queries
  Rebuild P_Belief Parts JointSpec Joint P_Joint Train TrainHist Coherent TrainSpec Gradient TrainInv GradientRun Trainer TrainerSpec TrainerProofs P_Categoric P_Factor Demo BeliefDemo TrainDemo P_Train
  P_Gradient P_GradientDemo FieldHist P_Field P_CRFDemo P_Trainer P_TrainerDemo.
Import ListNotations.
Open Scope nat_scope.

Section Trained.
  Context {N : num} (OK : num_ok N).
  Notation rst := (rst (N:=N)).
  Notation trainer := (trainer (N:=N)).
  Implicit Types s : rst.

  (** the record of the last propagation, if any, agrees with the factors *)
  Definition recorded s : Prop := forall r, g_last (r_g s) = Some r -> ready (r_h s) (spec_of (r_g s)) (pr_kind r) (r_g s) r.
  Record trained s0 s (ws : list N) : Prop := {
    tn_state : tstate s0 s ws;
    tn_clean : clean (r_g s);
    tn_rec : recorded s;
    tn_ev : (forall a, g_ev (r_g s0) a = None) -> forall a, g_ev (r_g s) a = None
  }.
  Lemma trained_coh s0 s ws : trained s0 s ws -> coh True s.
  Proof. intros [T C _ _]. destruct (ts_coh _ _ _ T). constructor; auto. Qed.

  Lemma trained_pool s0 s ws p : trained s0 s ws -> trained s0 (set_g s (set_pool (r_g s) p)) ws.
  Proof.
    intros [T C R E]. constructor; auto. apply tstate_pool; auto. intros r El. cbn [r_h r_g set_g].
    eapply ready_ext; [apply (R r El)| |reflexivity]. constructor; try reflexivity; auto. intros cl ts I X. left. eauto.
  Qed.

  Lemma trained_set s0 s ws ws' : trained s0 s ws -> length ws' = length (tunable_clusters s0) ->
    exists s', set_weights ws' s = Ret tt s' /\ trained s0 s' ws' /\ g_pool (r_g s') = g_pool (r_g s).
  Proof.
    intros T L. pose proof (trained_coh _ _ _ T) as CT. pose proof (tn_state _ _ _ T) as TS.
    destruct (tstate_set s0 s ws ws' TS L) as (s' & E & T' & P). exists s'. split; auto. split; auto.
    destruct (set_weights_ww s ws') as (s2 & E2 & _ & _ & _ & _ & _ & G & _). apply CT. rewrite (tstate_clusters _ _ _ TS). auto.
    rewrite E in E2. injection E2 as <-.
    pose proof (set_weights_coh True s ws' CT (ts_hid _ _ _ TS)) as CC. rewrite E in CC. cbn [ocoh] in CC.
    constructor; auto.
    - apply (ch_clean True s'); [apply CC|exact Logic.I].
    - intros r El. rewrite G in El. discriminate.
    - intros Q a. rewrite G. apply (tn_ev _ _ _ T Q a).
  Qed.

  Lemma bare_abs s s' : g_vars (r_g s') = g_vars (r_g s) -> g_all (r_g s') = g_all (r_g s) -> (forall a, g_ev (r_g s') a = None) -> abs (r_g s') (bare s).
  Proof. intros V A E. constructor; simpl; auto. Qed.

  Lemma trained_gradient s0 s ws e it samples : trained s0 s ws -> g_pool (r_g s) <> None -> env_ok e ->
    (forall ws, length ws = length (tunable_clusters s0) -> symmetric (with_weights (r_h s0) (tunable_clusters s0) ws) (bare s0) /\
       positive (weight (with_weights (r_h s0) (tunable_clusters s0) ws) (bare s0)) (bare s0)) ->
    (forall v, In v (g_vars (r_g s0)) -> tree_around (r_h s0) (bare s0) v) ->
    iter_samples it = Ok samples -> samples <> [] -> (forall c, In c samples -> valid_comb (map vsize (g_vars (r_g s0))) c) ->
    exists s', rf_gradient e it s = Ret (log_gradient (r_h s0) (bare s0) (tunable_clusters s0) samples ws) s' /\ trained s0 s' ws /\ g_pool (r_g s') <> None.
  Proof.
    intros T PN E TW TR IS NE V. pose proof (trained_coh _ _ _ T) as CT. pose proof (tn_state _ _ _ T) as TS.
    destruct (tstate_gradient OK s0 s ws e it samples TS PN E TW TR IS NE V) as (s' & Q & T' & P'). exists s'. split; auto. split; auto.
    assert (EB : bare s = bare s0) by (unfold bare; rewrite (ts_vars _ _ _ TS), (ts_all _ _ _ TS); auto).
    destruct (TW ws (ts_len _ _ _ TS)) as [SY PO].
    assert (SY' : symmetric (r_h s) (bare s)). { rewrite EB. eapply symmetric_ext; [|exact SY]. intros f. symmetry. apply TS. }
    assert (PO' : positive (weight (r_h s) (bare s)) (bare s)). { rewrite EB. eapply TrainerProofs.positive_ext; [|exact PO]. intros x. apply weight_ext. intros f. symmetry. apply TS. }
    assert (TR' : forall v, In v (sp_vars (bare s)) -> tree_around (r_h s) (bare s) v).
    { intros v J. rewrite EB in *. change (sp_vars (bare s0)) with (g_vars (r_g s0)) in J. eapply tree_ext; [| | |exact (TR v J)]; auto; [|tauto]. intros f. rewrite (ts_h _ _ _ TS), ww_vars. auto. }
    destruct (gradient_ok OK s True e it samples CT (ts_tin _ _ _ TS) PN E SY' PO' TR' IS NE) as (s2 & Q1 & Q2 & _ & Q4 & Q5 & Q6 & _).
    { rewrite (ts_vars _ _ _ TS). auto. }
    rewrite Q in Q1. injection Q1 as _ <-.
    pose proof (rf_gradient_coh True s e it CT E) as CC. rewrite Q in CC.
    assert (AN : answerable s (RGradient it 1)).
    { split. apply symmetric_balanced; auto. eapply Queries.positive_ext; [|exact PO']. intros x J. symmetry.
      pose proof (proj1 (ch_inv _ _ CC)) as X. rewrite Q2 in X.
      apply (symmetric_weight (r_h s) (r_g s')); auto. apply bare_abs; auto. }
    pose proof (gradient_calib OK s e it CT PN E AN) as GC. rewrite Q in GC. destruct GC as (G1 & _ & G3).
    constructor; auto.
    - apply (ch_clean True s'); [exact CC|exact Logic.I].
    - intros r El. rewrite G1. apply G3. auto.
  Qed.

  Lemma trained_usable s0 s ws A : trained s0 s ws -> g_pool (r_g s) = Some 1 -> abs (r_g s) A -> Queries.usable (r_h s) A (r_g s).
  Proof.
    intros T P AB. pose proof (trained_coh _ _ _ T) as C. split; [apply C|exact AB|apply (tn_clean _ _ _ T)|split; [exact P|]].
    intros r El. eapply ready_spec; [|apply (tn_rec _ _ _ T r El)]. apply (abs_same_spec (r_g s)); auto. apply (coh_abs True s C).
  Qed.

  Lemma no_evidence P s : coh P s -> (forall v, In v (g_vars (r_g s)) -> hidden (contents s) v) -> forall a, g_ev (r_g s) a = None.
  Proof.
    intros C Hv a. destruct (g_ev (r_g s) a) as [k|] eqn:Q; auto. exfalso. destruct (co_ev _ _ _ (proj1 (ch_inv _ _ C)) a k Q) as (v & Ha & _).
    pose proof (coh_abs P s C) as AB. destruct (Hv v) as [_ Z]. eapply nth_error_In; eauto.
    rewrite (ab_ev _ _ AB a v Ha) in Q. change (sp_ev (contents s) (vkey v) = None) in Z. unfold contents in *. congruence.
  Qed.

  Lemma training s ws (t : trainer) es floorf rand combs info : current s -> tunables_hidden s -> trainable s -> (forall k, env_ok (es k)) ->
    1 <= info_threads info -> usable_set s combs -> enough floorf (info_percentage info) (length combs) -> get_weights s = Ok ws ->
    let r := ideal_training (length (tunable_clusters s))
               (fun k => log_gradient (r_h s) (bare s) (tunable_clusters s) (drawn floorf rand combs (info_percentage info) k)) t 0 ws in
    exists s', train_field floorf rand es t combs info s = (if snd r then Ret tt s' else Thr s') /\ trained s s' (fst r) /\ g_pool (r_g s') = Some 1.
  Proof.
    intros [FU [CP CR]] TH [TW TR] E L [NE V] P GW r. pose proof (fl_coh _ _ FU) as C.
    assert (LW : length ws = length (tunable_clusters s)). { destruct (get_weights_ok s (ch_r _ _ C)) as (ws' & GW' & LW & _). congruence. }
    pose proof (iterators OK floorf rand combs info NE P) as W.
    destruct (choice_it (fun k => wrapper_get floorf rand (mkTI combs None) combs (info_percentage info) k)) as (its & ITS).
    { intros k. destruct (W k) as (it & -> & _). eauto. }
    unfold train_field. eapply (train_ideal (trained s)) with (its := its); auto.
    - intros s1 ws1 p. apply trained_pool.
    - intros s1 ws1 T1. apply T1.
    - intros s1 ws1 ws' T1 PN L'. destruct (trained_set s s1 ws1 ws' T1 L') as (s' & E1 & T' & P'). exists s'. rewrite P'. auto.
    - intros s1 ws1 ws' T1. eapply tstate_refuse. apply T1.
    - intros k s1 ws1 T1 PN. destruct (W k) as (it & E1 & E2 & E3). rewrite ITS in E1. injection E1 as <-.
      apply trained_gradient; auto. intros c J. apply V. eapply drawn_in; eauto.
    - intros x. apply (ok_eqb N OK). auto.
    - constructor; auto.
      + assert (CF : coh False s) by (destruct C; constructor; auto; intros []). constructor; auto; try apply FU. intros f. apply ww_same; auto. apply C.
      + apply (ch_clean _ _ C). exact Logic.I.
  Qed.
  Lemma trained_current s0 s ws : trained s0 s ws -> g_pool (r_g s) = Some 1 -> current s.
  Proof.
    intros T P. pose proof (trained_coh _ _ _ T) as C. split; [split|split]; auto. apply T. apply (tn_rec _ _ _ T).
  Qed.

  (** {1 Histories with trainings}

      The states reached from an empty model by any sequence of calls - insertions,
      changes of the evidences and of the weights, queries, gradients - that respects
      [alert] (FieldHist.v), and of trainings, that may end with an exception. *)
  Inductive taught (h : nat -> func N) (top : nat) : rst -> Prop :=
  | TA_start : taught h top (r_empty h top)
  | TA_ret s e op a s' : taught h top s -> rok op s -> alert s op -> env_ok e -> rcall e op s = Ret a s' -> taught h top s'
  | TA_thr s e op s' : taught h top s -> rok op s -> alert s op -> env_ok e -> rcall e op s = Thr s' -> taught h top s'
  | TA_train s s' t es floorf rand combs info : taught h top s -> tunables_hidden s -> trainable s -> (forall k, env_ok (es k)) ->
      1 <= info_threads info -> usable_set s combs -> enough floorf (info_percentage info) (length combs) ->
      train_field floorf rand es t combs info s = Ret tt s' \/ train_field floorf rand es t combs info s = Thr s' -> taught h top s'.

  Lemma taught_current h top s : (forall f, built (h f)) -> taught h top s -> current s.
  Proof.
    intros Hb R. induction R as [|s e op a s' R IH Hop G E Q|s e op s' R IH Hop G E Q|s s' t es floorf rand combs info R IH TH TN E L US P Q].
    - apply (rreach_current OK h top); auto. constructor.
    - pose proof (rcall_current OK e op s IH Hop G E) as X. rewrite Q in X. auto.
    - pose proof (rcall_current OK e op s IH Hop G E) as X. rewrite Q in X. auto.
    - destruct (get_weights_ok s (ch_r _ _ (fl_coh _ _ (proj1 IH)))) as (ws & GW & _).
      destruct (training s ws t es floorf rand combs info IH TH TN E L US P GW) as (s2 & Q2 & T & PL).
      assert (s2 = s') as <-. { destruct (snd _); destruct Q as [Q|Q]; rewrite Q in Q2; congruence. }
      eapply trained_current; eauto.
  Qed.

  (** {1 The answers}

      The full property has no hypothesis on cycles, on the tunable factors and on the
      history. *)
  Theorem C62_marginals_partial : forall h top s e n v, (forall f, built (h f)) -> taught h top s -> env_ok e -> 1 <= n ->
    symmetric (r_h s) (contents s) -> positive (weight (r_h s) (contents s)) (contents s) ->
    hidden (contents s) v -> tree_around (r_h s) (contents s) v ->
    exists g, get_marginal (r_h s) e v n (r_g s) = Ret (map (marginal (weight (r_h s) (contents s)) (contents s) v) (seq 0 (vsize v))) g.
  Proof.
    intros h top s e n v Hb R E L SY PO Hv T. pose proof (taught_current h top s Hb R) as CU. pose proof (current_usable s CU) as U.
    pose proof (coh_good OK True s (fl_coh _ _ (proj1 CU))) as HG.
    set (A := contents s) in *. set (H := r_h s) in *. pose proof U as [[C _] AB _ _].
    assert (EX : forall x, In x (all_asg (sp_vars A)) -> weight_swapped H A x = weight H A x) by (intros x; apply (symmetric_weight H (r_g s)); auto).
    destruct (marginal_exact OK H HG A e n (r_g s) v U E L (symmetric_balanced H A SY)) as [s' Q]; auto.
    { eapply Queries.positive_ext; [|exact PO]. intros; symmetry; auto. }
    exists s'. rewrite Q. f_equal. apply map_ext. intros j. apply marginal_ext. auto.
  Qed.

  Theorem C62_map_partial : forall h top s e n v, (forall f, built (h f)) -> taught h top s -> env_ok e -> 1 <= n ->
    symmetric (r_h s) (contents s) -> above_floor (r_h s) (contents s) -> positive (weight (r_h s) (contents s)) (contents s) ->
    hidden (contents s) v -> tree_around (r_h s) (contents s) v ->
    exists j g, get_map (r_h s) e v n (r_g s) = Ret j g /\
      (exists x, most_probable (weight (r_h s) (contents s)) (contents s) x /\ val x v = j) /\
      (forall x, most_probable (weight (r_h s) (contents s)) (contents s) x -> j <= val x v).
  Proof.
    intros h top s e n v Hb R E L SY AF PO Hv T. pose proof (taught_current h top s Hb R) as CU. pose proof (current_usable s CU) as U.
    pose proof (coh_good OK True s (fl_coh _ _ (proj1 CU))) as HG.
    set (A := contents s) in *. set (H := r_h s) in *. pose proof U as [[C _] AB _ _].
    assert (EX : forall x, In x (all_asg (sp_vars A)) -> weight_swapped H A x = weight H A x) by (intros x; apply (symmetric_weight H (r_g s)); auto).
    destruct (map_hidden OK H HG A e n (r_g s) v U E L (symmetric_balanced H A SY)) as (j & s' & Q & Bj); auto.
    { eapply Queries.positive_ext; [|exact PO]. intros; symmetry; auto. }
    exists j, s'. split; auto. apply (best_ext _ (weight H A)) in Bj; auto.
  Qed.

  Theorem C62_joint_partial : forall h top s e n g, (forall f, built (h f)) -> taught h top s -> env_ok e -> 1 <= n ->
    symmetric (r_h s) (contents s) -> positive (weight (r_h s) (contents s)) (contents s) ->
    group_of (r_h s) (contents s) g -> joined_inside (r_h s) (contents s) (g_soup g) -> one_observed (contents s) (g_soup g) ->
    exists f g', get_joint (r_h s) e g n (r_g s) = Ret f g' /\ f_vars f = g_soup g /\
      exists c, (n0 < c)%num /\ forall l, valid_comb (map vsize (g_soup g)) l ->
        fval f l = (c * mass (weight (r_h s) (contents s)) (contents s) (takes_all (g_soup g) l))%num.
  Proof.
    intros h top s e n g Hb R E L SY PO (WG & NE & KN & TR) JI OO. pose proof (taught_current h top s Hb R) as CU. pose proof (current_usable s CU) as U.
    pose proof (coh_good OK True s (fl_coh _ _ (proj1 CU))) as HG.
    destruct (joint_exact OK (r_h s) HG (contents s) e n (r_g s) g U E L SY PO WG NE KN TR JI OO) as (f & s' & Q & _ & Gf & _ & c & Pc & V).
    exists f, s'. split; auto. split; [unfold f_vars; rewrite Gf; auto|]. eauto.
  Qed.

  (** right after a training that starts without evidences, the marginals and the most
      probable values are the ones of the weights ended with by the ideal training,
      whichever number of threads and order of the pending tasks; no other hypothesis is
      needed than the ones of [C52_field_partial] *)
  Theorem C62_answers_partial : forall h top s ws (t : trainer) es floorf rand combs info,
    (forall f, built (h f)) -> taught h top s -> (forall v, In v (g_vars (r_g s)) -> hidden (contents s) v) ->
    tunables_hidden s -> trainable s -> (forall k, env_ok (es k)) ->
    1 <= info_threads info -> usable_set s combs -> enough floorf (info_percentage info) (length combs) -> get_weights s = Ok ws ->
    let r := ideal_training (length (tunable_clusters s))
               (fun k => log_gradient (r_h s) (bare s) (tunable_clusters s) (drawn floorf rand combs (info_percentage info) k)) t 0 ws in
    let F := with_weights (r_h s) (tunable_clusters s) (fst r) in
    exists s', train_field floorf rand es t combs info s = (if snd r then Ret tt s' else Thr s') /\
      (forall v, In v (g_vars (r_g s)) -> hidden (contents s') v) /\
      (forall e n v, env_ok e -> 1 <= n -> In v (g_vars (r_g s)) ->
        exists g, get_marginal (r_h s') e v n (r_g s') = Ret (map (marginal (weight F (bare s)) (bare s) v) (seq 0 (vsize v))) g) /\
      (forall e n v, env_ok e -> 1 <= n -> In v (g_vars (r_g s)) -> above_floor F (bare s) ->
        exists j g, get_map (r_h s') e v n (r_g s') = Ret j g /\
          (exists x, most_probable (weight F (bare s)) (bare s) x /\ val x v = j) /\
          (forall x, most_probable (weight F (bare s)) (bare s) x -> j <= val x v)).
  Proof.
    intros h top s ws t es floorf rand combs info Hb R HI TH [TW TR] E L US P GW r F.
    pose proof (taught_current h top s Hb R) as CU. pose proof (fl_coh _ _ (proj1 CU)) as C.
    destruct (training s ws t es floorf rand combs info CU TH (conj TW TR) E L US P GW) as (s' & Q & T & PL). exists s'. split; auto.
    pose proof (tn_state _ _ _ T) as TS. pose proof (trained_coh _ _ _ T) as C'.
    assert (EV : forall a, g_ev (r_g s') a = None) by (apply (tn_ev _ _ _ T); apply (no_evidence True s C HI)).
    pose proof (bare_abs s s' (ts_vars _ _ _ TS) (ts_all _ _ _ TS) EV) as AB.
    pose proof (trained_usable s s' (fst r) (bare s) T PL AB) as U.
    pose proof (coh_good OK True s' C') as HG.
    destruct (TW (fst r) (ts_len _ _ _ TS)) as [SY PO].
    assert (SY' : symmetric (r_h s') (bare s)). { eapply symmetric_ext; [|exact SY]. intros f. symmetry. apply TS. }
    assert (WE : forall x, weight F (bare s) x = weight (r_h s') (bare s) x). { intros x. apply weight_ext. intros f. symmetry. apply TS. }
    assert (EX : forall x, In x (all_asg (sp_vars (bare s))) -> weight_swapped (r_h s') (bare s) x = weight F (bare s) x).
    { intros x J. rewrite WE. apply (symmetric_weight (r_h s') (r_g s')); auto. apply (ch_inv _ _ C'). }
    assert (PW : positive (weight_swapped (r_h s') (bare s)) (bare s)). { eapply Queries.positive_ext; [|exact PO]. intros x J. symmetry. apply EX. auto. }
    assert (TR' : forall v, In v (g_vars (r_g s)) -> tree_around (r_h s') (bare s) v).
    { intros v J. eapply tree_ext; [| | |exact (TR v J)]; auto; [|tauto]. intros f. rewrite (ts_h _ _ _ TS), ww_vars. auto. }
    assert (HB : forall v, In v (g_vars (r_g s)) -> hidden (bare s) v) by (intros v J; split; auto).
    split; [|split].
    - intros v J. split. simpl. rewrite (ts_vars _ _ _ TS). auto. unfold sp_evidence, contents, spec_of. cbn [sp_ev]. destruct (find_pos _ _); auto.
    - intros e n v Ee Ln J. destruct (marginal_exact OK (r_h s') HG (bare s) e n (r_g s') v U Ee Ln (symmetric_balanced (r_h s') (bare s) SY')) as [g Qm]; auto.
      exists g. rewrite Qm. f_equal. apply map_ext. intros j. apply marginal_ext. auto.
    - intros e n v Ee Ln J AF. assert (AF' : above_floor (r_h s') (bare s)).
      { intros f v1 v2 I1 I2 I3 I4 i j. unfold fv in *. rewrite (ts_h _ _ _ TS). apply (AF f v1 v2); auto. unfold fv. rewrite <- I2, (ts_h _ _ _ TS). auto. }
      destruct (map_hidden OK (r_h s') HG (bare s) e n (r_g s') v U Ee Ln (symmetric_balanced (r_h s') (bare s) SY')) as (j & g & Qm & Bj); auto.
      exists j, g. split; auto. apply (best_ext _ (weight F (bare s))) in Bj; auto.
  Qed.

  (** {1 Gradients and further trainings} *)
  Theorem C62_gradient_partial : forall h top s e it n samples, (forall f, built (h f)) -> taught h top s -> env_ok e -> 1 <= n ->
    symmetric_forest s -> positive (weight (r_h s) (bare s)) (bare s) -> iter_samples it = Ok samples -> usable_set s samples ->
    exists s', weights_gradient e it n s = Ret (map (fun c => (mean (g_vars (r_g s)) samples (features (r_h s) c) -
                                                     expected (weight (r_h s) (bare s)) (bare s) (features (r_h s) c))%num) (tunable_clusters s)) s' /\
      r_h s' = r_h s /\ tunable_clusters s' = tunable_clusters s.
  Proof.
    intros h top s e it n samples Hb R E L SF PO IS US. pose proof (taught_current h top s Hb R) as [FU _].
    destruct (scoped_gradient OK s True e it n samples FU E L SF PO IS US) as (s' & Q1 & Q2 & Q3 & _). exists s'. auto.
  Qed.
  (** a model that was trained is trained again, with what was called in between *)
  Theorem C62_retraining_partial : forall h top s ws (t : trainer) es floorf rand combs info,
    (forall f, built (h f)) -> taught h top s -> tunables_hidden s -> trainable s -> (forall k, env_ok (es k)) ->
    1 <= info_threads info -> usable_set s combs -> enough floorf (info_percentage info) (length combs) -> get_weights s = Ok ws ->
    let r := ideal_training (length (tunable_clusters s))
               (fun k => log_gradient (r_h s) (bare s) (tunable_clusters s) (drawn floorf rand combs (info_percentage info) k)) t 0 ws in
    exists s', train_field floorf rand es t combs info s = (if snd r then Ret tt s' else Thr s') /\
      get_weights s' = Ok (fst r) /\ (forall f, r_h s' f = with_weights (r_h s) (tunable_clusters s) (fst r) f) /\
      tunable_clusters s' = tunable_clusters s /\ r_const s' = r_const s /\ r_tun s' = r_tun s /\
      g_vars (r_g s') = g_vars (r_g s) /\ g_all (r_g s') = g_all (r_g s) /\ g_pool (r_g s') = Some 1.
  Proof.
    intros h top s ws t es floorf rand combs info Hb R TH TN E L US P GW r. pose proof (taught_current h top s Hb R) as CU.
    destruct (training s ws t es floorf rand combs info CU TH TN E L US P GW) as (s' & Q1 & T & Q3). pose proof (tn_state _ _ _ T) as Q2.
    exists s'. split. exact Q1. splits; auto; try apply Q2. apply (tstate_clusters _ _ _ Q2).
  Qed.
End Trained.
Print Assumptions C62_gradient_partial.
Print Assumptions C62_retraining_partial.
Print Assumptions C62_marginals_partial.
Print Assumptions C62_map_partial.
Print Assumptions C62_joint_partial.
Print Assumptions C62_answers_partial.

(** {1 Examples}

    A - C and C - D with a shared weight, D - E with another one, a constant factor on
    A; the marginal of C is asked and two steps of a descent are made. Then E is observed, or
    the weights are trained again. *)
Definition u_tale : list (rop (N:=QcNum)) :=
  [RConst (Some 2); RTun (Some 0) None; RTun (Some 3) None; RTun (Some 1) (Some [exC; exA]); RGraph (OMarginal exC 1)].
Notation u_state := (rruns (r_empty tH 6) u_tale).
Definition d_combs : list (list nat) := [[0; 1; 1; 0]; [1; 1; 0; 0]; [1; 0; 0; 1]; [0; 0; 1; 1]].
Notation u_step s := (rafter s (train_field qfloor t_rand (fun _ => env_rev) (descent (q 1 2) 2) d_combs t_info s)).
Lemma reach_taught {N : num} h top (s : rst (N:=N)) : rreach h top alert s -> taught h top s.
Proof. intros R. induction R. constructor. eapply TA_ret; eauto. eapply TA_thr; eauto. Qed.
Lemma u_reach : rreach tH 6 alert u_state.
Proof. apply rruns_alert. constructor. vm_compute. reflexivity. Qed.
Lemma u_taught : taught tH 6 u_state.
Proof. apply reach_taught. exact u_reach. Qed.
Lemma u_coh : coh False u_state.
Proof.
  pose proof (fl_coh _ _ (proj1 (rreach_current QcNum_ok tH 6 u_state tH_built u_reach))) as [C1 C2 C3]. constructor. exact C1. exact C2. intros [].
Qed.
Lemma u_hidden : tunables_hidden u_state.
Proof. apply tunables_hiddenb_ok. vm_compute. reflexivity. Qed.
Lemma u_trainable : trainable u_state.
Proof. apply (trainableb_ok QcNum_ok False). exact u_coh. vm_compute. reflexivity. Qed.
Lemma u_enough : enough qfloor (info_percentage t_info) (length d_combs).
Proof. right. split; [|split]. vm_compute; reflexivity. vm_compute; reflexivity. apply Nat.leb_le. vm_compute. reflexivity. Qed.
Lemma u_set : usable_set u_state d_combs.
Proof. apply usable_setb_ok. vm_compute. reflexivity. Qed.
Lemma u_threads : 1 <= info_threads t_info.
Proof. apply Nat.leb_le. reflexivity. Qed.
Lemma u_free v : In v (g_vars (r_g u_state)) -> hidden (contents u_state) v.
Proof.
  assert (X : forallb (hiddenb (contents u_state)) (g_vars (r_g u_state)) = true) by (vm_compute; reflexivity).
  rewrite forallb_forall in X. intros J. apply hiddenb_ok. apply X. exact J.
Qed.
Notation u_ideal := (ideal_training (length (tunable_clusters u_state))
  (fun k => log_gradient (r_h u_state) (bare u_state) (tunable_clusters u_state) (drawn qfloor t_rand d_combs (info_percentage t_info) k)) (descent (q 1 2) 2) 0 [q 1 2; q 1 1]).
Notation u_fac := (with_weights (r_h u_state) (tunable_clusters u_state) (fst u_ideal)).

Example C62_answers_example : exists s' g, train_field qfloor t_rand (fun _ => env_rev) (descent (q 1 2) 2) d_combs t_info u_state = Ret tt s' /\
  get_marginal (r_h s') env_id exC 2 (r_g s') = Ret (map (marginal (weight u_fac (bare u_state)) (bare u_state) exC) (seq 0 2)) g.
Proof.
  assert (GW : get_weights u_state = Ok [q 1 2; q 1 1]) by (vm_compute; reflexivity).
  destruct (C62_answers_partial QcNum_ok tH 6 u_state [q 1 2; q 1 1] (descent (q 1 2) 2) (fun _ => env_rev) qfloor t_rand d_combs t_info tH_built u_taught u_free u_hidden u_trainable
    (fun _ => env_rev_ok) u_threads u_set u_enough GW) as (s' & E1 & _ & E2 & _).
  destruct (E2 env_id 2 exC env_id_ok (le_S _ _ (le_n 1))) as [g Q]. { vm_compute. auto. }
  exists s', g. split; [|exact Q].
  rewrite E1. match goal with |- (if ?b then _ else _) = _ => assert (X : b = true) by (vm_compute; reflexivity); rewrite X; reflexivity end.
Qed.
(** the training changes the marginal *)
Example C62_answers_values :
  neqb (marginal (weight u_fac (bare u_state)) (bare u_state) exC 0) (marginal (weight (r_h u_state) (bare u_state)) (bare u_state) exC 0) = false.
Proof. vm_compute. reflexivity. Qed.

(** after the training, E is observed *)
Notation u_seen := (rruns (u_step u_state) [RGraph (OMarginal exD 2); RGraph (OSet exE 1)]).
Lemma u_trained : taught tH 6 (u_step u_state).
Proof.
  apply (TA_train tH 6 u_state _ (descent (q 1 2) 2) (fun _ => env_rev) qfloor t_rand d_combs t_info u_taught u_hidden u_trainable (fun _ => env_rev_ok) u_threads u_set u_enough).
  destruct C62_answers_example as (s' & g & E & _). rewrite E. left. reflexivity.
Qed.
Lemma rruns_taught {N : num} h top (ops : list (rop (N:=N))) : forall s, taught h top s -> ralert ops s = true -> taught h top (rruns s ops).
Proof.
  induction ops as [|op ops IH]; intros s R SA; auto.
  cbn [ralert] in SA. apply andb_true_iff in SA as [SA SB]. apply andb_true_iff in SA as [SA S2]. apply andb_true_iff in SA as [S1 S3].
  apply rokb_ok in S1. apply andb_true_iff in S3 as [S3 S4]. apply (steadyb_ok True) in S3. apply answerableb_ok in S4.
  change (taught h top (rruns (rstep op s) ops)). apply IH; auto.
  unfold rstep. destruct (rcall env_id op s) eqn:Q; try discriminate S2; simpl.
  - eapply TA_ret; eauto; [split; auto|apply env_id_ok].
  - eapply TA_thr; eauto; [split; auto|apply env_id_ok].
Qed.
Lemma u_seen_taught : taught tH 6 u_seen.
Proof. apply rruns_taught. exact u_trained. vm_compute. reflexivity. Qed.
Lemma u_seen_nodup : NoDup (sp_vars (contents u_seen)).
Proof. vm_compute. repeat (constructor; [simpl; intuition discriminate|]). constructor. Qed.
Lemma u_seen_tree v : tree_around (r_h u_seen) (contents u_seen) v.
Proof. apply (forestb_ok (r_h u_seen)). exact u_seen_nodup. vm_compute. reflexivity. Qed.
Example C62_marginals_example : exists g, get_marginal (r_h u_seen) env_rev exC 2 (r_g u_seen) =
  Ret (map (marginal (weight (r_h u_seen) (contents u_seen)) (contents u_seen) exC) (seq 0 2)) g.
Proof.
  apply (C62_marginals_partial QcNum_ok tH 6 u_seen env_rev 2 exC tH_built u_seen_taught env_rev_ok (le_S _ _ (le_n 1))).
  - apply (symmetricb_ok QcNum_ok). vm_compute. reflexivity.
  - apply positiveb_ok. vm_compute. reflexivity.
  - apply hiddenb_ok. vm_compute. reflexivity.
  - apply u_seen_tree.
Qed.
Example C62_map_example : exists j g, get_map (r_h u_seen) env_rev exA 2 (r_g u_seen) = Ret j g /\
  (exists x, most_probable (weight (r_h u_seen) (contents u_seen)) (contents u_seen) x /\ val x exA = j).
Proof.
  destruct (C62_map_partial QcNum_ok tH 6 u_seen env_rev 2 exA tH_built u_seen_taught env_rev_ok (le_S _ _ (le_n 1))) as (j & g & Q & X & _).
  - apply (symmetricb_ok QcNum_ok). vm_compute. reflexivity.
  - apply above_floorb_ok. vm_compute. reflexivity.
  - apply positiveb_ok. vm_compute. reflexivity.
  - apply hiddenb_ok. vm_compute. reflexivity.
  - apply u_seen_tree.
  - exists j, g. split. exact Q. exact X.
Qed.
Example C62_joint_example : exists f g, get_joint (r_h u_seen) env_rev (mkGroup [exA; exC] [exA; exC]) 2 (r_g u_seen) = Ret f g /\
  exists c, (n0 < c)%num /\ forall l, valid_comb [vsize exA; vsize exC] l ->
    fval f l = (c * mass (weight (r_h u_seen) (contents u_seen)) (contents u_seen) (takes_all [exA; exC] l))%num.
Proof.
  destruct (C62_joint_partial QcNum_ok tH 6 u_seen env_rev 2 (mkGroup [exA; exC] [exA; exC]) tH_built u_seen_taught env_rev_ok (le_S _ _ (le_n 1))) as (f & g & Q & _ & X).
  - apply (symmetricb_ok QcNum_ok). vm_compute. reflexivity.
  - apply positiveb_ok. vm_compute. reflexivity.
  - split. { split; [|apply Permutation_refl]. vm_compute. repeat (constructor; [simpl; intuition discriminate|]). constructor. }
    split; [intros Q; inversion Q|]. split; [|intros v _ _; exact (u_seen_tree v)].
    intros v J. assert (Z : forallb (hiddenb (contents u_seen)) [exA; exC] = true) by (vm_compute; reflexivity).
    rewrite forallb_forall in Z. apply Z in J. apply hiddenb_ok in J. exact (proj1 J).
  - apply (joinedb_ok (r_h u_seen)). vm_compute. reflexivity.
  - apply one_observedb_ok. vm_compute. reflexivity.
  - exists f, g. split. exact Q. exact X.
Qed.
(** the gradient and a second training of the trained model *)
Notation u_again := (u_step u_state).
Lemma u_again_coh : coh False u_again.
Proof.
  pose proof (fl_coh _ _ (proj1 (taught_current QcNum_ok tH 6 u_again tH_built u_trained))) as [C1 C2 C3]. constructor. exact C1. exact C2. intros [].
Qed.
Example C62_gradient_example : exists l s', weights_gradient env_rev (mkTI d_combs None) 2 u_again = Ret l s' /\ length l = 2.
Proof.
  destruct (C62_gradient_partial QcNum_ok tH 6 u_again env_rev (mkTI d_combs None) 2 d_combs tH_built u_trained env_rev_ok (le_S _ _ (le_n 1))) as (s' & Q & _).
  - apply (symmetric_forestb_ok QcNum_ok False). exact u_again_coh. vm_compute. reflexivity.
  - apply positiveb_ok. vm_compute. reflexivity.
  - reflexivity.
  - apply usable_setb_ok. vm_compute. reflexivity.
  - eexists. exists s'. split. exact Q. rewrite map_length. vm_compute. reflexivity.
Qed.
Example C62_retraining_example : exists ws s', train_field qfloor t_rand (fun _ => env_id) (TSet [q 1 1; q 2 1] TError) d_combs t_info u_again = Thr s' /\
  get_weights s' = Ok ws /\ same_weights (Ok ws) [q 1 1; q 2 1] = true.
Proof.
  destruct (get_weights_ok u_again (ch_r _ _ u_again_coh)) as (ws & GW & _).
  destruct (C62_retraining_partial QcNum_ok tH 6 u_again ws (TSet [q 1 1; q 2 1] TError) (fun _ => env_id) qfloor t_rand d_combs t_info tH_built u_trained) as (s' & E1 & E2 & _); try exact GW.
  - apply tunables_hiddenb_ok. vm_compute. reflexivity.
  - apply (trainableb_ok QcNum_ok False). exact u_again_coh. vm_compute. reflexivity.
  - intros _. apply env_id_ok.
  - exact u_threads.
  - apply usable_setb_ok. vm_compute. reflexivity.
  - exact u_enough.
  - assert (LC : length (tunable_clusters u_again) = 2) by (vm_compute; reflexivity). rewrite LC in E1, E2.
    exists [q 1 1; q 2 1], s'. split. exact E1. split. exact E2. apply same_weights_refl.
Qed.
