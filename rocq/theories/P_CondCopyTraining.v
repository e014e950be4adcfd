(** Property C46 for the training of conditional random fields: the gradient and the
    training of the conditional random field built from another one are those of the
    other, for training sets with the values listed in the order of the variables of
    the new model. *)
From Coq Require Import String List Arith Bool Lia Permutation Relations QArith Qcanon Field.
From Verif Require Import Res Num Categoric Combs Func FuncProofs GroupProofs FactorProofs FactorApi Special SpecialProofs
  Graph GraphLemmas Clusters Belief Query GraphInv EvidInv BeliefInv BigOp GraphSpec Hist P_Graph BeliefSpec JointSpec Sums BeliefHist
  Rebuild Train TrainHist Coherent TrainInv P_Categoric P_Factor Demo BeliefDemo TrainDemo P_Train P_Gradient P_GradientDemo P_Joint Separate FieldHist P_Field Plan CopyProofs P_Copy
  IO TextSpec TextProofs Json JsonRead JsonProofs P_Json Xml XmlProofs P_Xml P_FilesAnswers TrainSpec Gradient GradientRun P_CopyAnswers P_CopyGradient
  RealNum Gibbs Tree Cycle BPStep BPRun Exact Queries Parts Joint GibbsProofs Likelihood CRF CRFHist CRFInv CRFSpec CRFGradient Trainer TrainerSpec TrainerProofs P_CRFDemo P_Trainer P_TrainerDemo
  CRF CRFHist CRFInv CRFSpec CRFGradient P_CRF P_CRFDemo P_CRFGradient P_CRFGradientDemo P_CondAnswers P_CondCopy P_CondCopyAnswers P_CopyTraining.
Import ListNotations.
Open Scope nat_scope.

Section P.
  Context {N : num} (OK : num_ok N).
  Notation crf := (crf (N:=N)).

  Lemma reorder_length vs vs' c : length (reorder vs vs' c) = length vs'.
  Proof. apply map_length. Qed.
  (** the evidences given by a combination and by the reordered one *)
  Lemma given_reordered A A' x : NoDup (map vkey (sp_vars A)) -> NoDup (map vkey (sp_vars A')) -> Permutation (sp_vars A) (sp_vars A') ->
    (forall v, In v (sp_vars A) -> sp_evidence A' v = sp_evidence A v) -> length x = length (sp_vars A) ->
    forall v, In v (sp_vars A) -> sp_evidence (given A' (reorder (sp_vars A) (sp_vars A') x)) v = sp_evidence (given A x) v.
  Proof.
    intros NK NK' PV EV L v J. pose proof (EV v J) as Ev. unfold sp_evidence in *. change (vname v, vsize v) with (vkey v) in *.
    assert (J' : In v (sp_vars A')) by (eapply Permutation_in; eauto).
    apply In_nth_error in J as [a Qa]. apply In_nth_error in J' as [a' Qa'].
    rewrite (given_ev A x a v NK L Qa), (given_ev A' _ a' v NK' (reorder_length _ _ _) Qa'), Ev. destruct (sp_ev A (vkey v)); auto.
    unfold reorder. rewrite nth_error_map, Qa'. cbn [option_map].
    assert (X : exists y, nth_error x a = Some y).
    { destruct (nth_error x a) as [y|] eqn:Z; eauto. apply nth_error_None in Z. assert (W : nth_error (sp_vars A) a <> None) by congruence. apply nth_error_Some in W. lia. }
    destruct X as [y Qy]. rewrite Qy. f_equal. apply (val_combine _ (NoDup_map_inv _ _ NK) x a v y Qa Qy).
  Qed.
  Lemma comb_length vs x : valid_comb (map vsize vs) x -> length x = length vs.
  Proof. intros V. rewrite <- (map_length vsize vs). clear -V. unfold valid_comb in V. induction V; cbn [length]; congruence. Qed.
  Lemma tunables_all P (s : rst (N:=N)) : coh P s -> incl (concat (tunable_clusters s)) (g_all (r_g s)).
  Proof. intros Ct f J. pose proof (ch_r _ _ Ct) as I. apply (ri_in _ I). apply in_or_app. right. apply (ri_tun _ I). exact J. Qed.

  Lemma F2_length {A B} (R : A -> B -> Prop) a b : Forall2 R a b -> length b = length a.
  Proof. induction 1; cbn [length]; congruence. Qed.

  Section Same.
    Variables (src c : crf).
    Hypothesis LS : clives false src.
    Hypothesis LC : clives false c.
    Hypothesis SC : same_content (c_r src) (c_r c).
    Hypothesis TC : Forall2 (Forall2 (tuned_as (r_h (c_r src)) (r_h (c_r c)))) (tunable_clusters (c_r src)) (tunable_clusters (c_r c)).
    Notation order := (reorder (g_vars (graph_of src)) (g_vars (graph_of c))).
    Notation F := (factors src).
    Notation F' := (factors c).
    Notation A := (content src).
    Notation A' := (content c).

    Lemma cc_coh (d : crf) : clives false d -> coh False (c_r d).
    Proof. intros L. exact (source_coh (c_r d) (SRC_cond d L)). Qed.
    Lemma cc_parts : goods F /\ NoDup (sp_vars A) /\ (forall f, In f (sp_facs A) -> incl (f_vars (F f)) (sp_vars A)) /\
      Permutation (sp_vars A) (sp_vars A') /\ (forall v, In v (sp_vars A) -> sp_evidence A' v = sp_evidence A v) /\
      exists l, Permutation (sp_facs A) l /\ Forall2 (stands_for F F') l (sp_facs A').
    Proof. exact (content_parts OK _ _ _ _ (cc_coh src LS) (cc_coh c LC) SC). Qed.
    Lemma cc_given x : valid_comb (map vsize (sp_vars A)) x -> forall v, In v (sp_vars A) -> sp_evidence (given A' (order x)) v = sp_evidence (given A x) v.
    Proof.
      intros V. destruct cc_parts as (_ & _ & _ & PV & EV & _).
      apply (given_reordered A A' x (co_vars _ _ _ (proj1 (ch_inv _ _ (cc_coh src LS)))) (co_vars _ _ _ (proj1 (ch_inv _ _ (cc_coh c LC)))) PV EV (comb_length _ _ V)).
    Qed.
    Lemma cc_usable samples : usable src samples -> usable c (map order samples).
    Proof.
      destruct cc_parts as (_ & ND & _ & PV & _). intros [NE V]. split. { intros Z. apply map_eq_nil in Z. auto. }
      intros k J. apply in_map_iff in J as (k0 & <- & J). apply reorder_valid; auto. intros v Jv. eapply Permutation_in; [symmetry; exact PV|exact Jv].
    Qed.
    Lemma cc_gradient it samples es es' n n' : iter_samples it = Ok samples -> usable src samples ->
      (forall k, env_ok (es k)) -> (forall k, env_ok (es' k)) -> same_positions src es -> same_positions c es' -> 1 <= n -> 1 <= n' ->
      hidden_forest src -> (forall x, In x samples -> positive (weight F A) (given A x)) ->
      exists g t t', gradient es it n src = Ret g t /\ gradient es' (reordered (g_vars (graph_of src)) (g_vars (graph_of c)) it) n' c = Ret g t'.
    Proof.
      intros IS US E E' SP SP' L L' [SY TR] PO. destruct cc_parts as (G & ND & FV & PV & EV & l & PL & TW).
      assert (HF' : hidden_forest c).
      { split. { apply (twins_symmetric F F' A A' l PV EV PL TW SY). }
        intros v Hv. apply (twins_tree F F' A A' l PV EV PL TW v). apply TR. apply (twins_hidden A A' PV EV). exact Hv. }
      assert (PO' : forall x, In x (map order samples) -> positive (weight F' A') (given A' x)).
      { intros x J. apply in_map_iff in J as (y & <- & J).
        apply (twins_positive OK F F' (given A y) (given A' (order y)) l ND FV PV (cc_given y (proj2 US y J)) PL TW (PO y J)). }
      destruct (scoped_crf OK src false es it n samples LS E SP L (conj SY TR) IS US PO) as (t & Qt & _).
      destruct (scoped_crf OK c false es' _ n' _ LC E' SP' L' HF' (reordered_samples _ _ _ _ IS) (cc_usable samples US) PO') as (t' & Qt' & _).
      eexists. exists t, t'. split; [exact Qt|]. rewrite Qt'. f_equal.
      assert (CA : incl (concat (tunable_clusters (c_r src))) (sp_facs A)) by exact (tunables_all _ _ (cc_coh src LS)).
      assert (Y : forall a b, Forall2 (Forall2 (tuned_as F F')) a b -> incl (concat a) (sp_facs A) ->
        map (fun d => (mean (g_vars (graph_of c)) (map order samples) (features F' d) - mean_expected F' A' (map order samples) (features F' d))%num) b =
        map (fun d => (mean (g_vars (graph_of src)) samples (features F d) - mean_expected F A samples (features F d))%num) a); [|exact (Y _ _ TC CA)].
      clear CA. induction 1 as [|d d' cs cs' T TC' IH]; intros CA; cbn [map]; [reflexivity|].
      rewrite IH by (intros f J; apply CA; cbn [concat]; apply in_or_app; right; exact J).
      assert (CA0 : forall f, In f d -> In f (sp_facs A)) by (intros f J; apply CA; cbn [concat]; apply in_or_app; left; exact J). f_equal. f_equal.
      - apply (same_mean F F' A A' ND FV PV d d' CA0 T samples (proj2 US)).
      - unfold mean_expected. rewrite map_length, sumL_map. f_equal. apply sumL_ext. intros x J.
        apply (same_expected OK F F' (given A x) (given A' (order x)) l G ND FV PV (cc_given x (proj2 US x J)) PL TW d d' CA0 T).
    Qed.

    Lemma cc_training ws (t : trainer (N:=N)) floorf rand combs info : exposed (c_r src) -> crf_trainable src combs ->
      get_weights (c_r src) = Ok ws -> get_weights (c_r c) = Ok ws ->
      1 <= info_threads info -> usable src combs -> enough floorf (info_percentage info) (length combs) ->
      forall es es', (forall i k, env_ok (es i k)) -> (forall i k, env_ok (es' i k)) -> (forall i, same_positions src (es i)) -> (forall i, same_positions c (es' i)) ->
        exists (ends : bool) ws' src' s',
          train_crf floorf rand es (c_pos src) t combs info (c_r src) = (if ends then Ret tt src' else Thr src') /\
          train_crf floorf rand es' (c_pos c) t (map order combs) info (c_r c) = (if ends then Ret tt s' else Thr s') /\
          get_weights src' = Ok ws' /\ get_weights s' = Ok ws'.
    Proof.
      intros XP [TW0 TF] GW GW' L US EN es es' E E' SP SP'. destruct cc_parts as (G & ND & FV & PV & EV & l & PL & TW).
      pose proof (cc_coh src LS) as CS. pose proof (cc_coh c LC) as C. pose proof (ch_r _ _ CS) as I. pose proof (ch_r _ _ C) as I'.
      pose proof (tunables_all _ _ CS) as CA. pose proof (tunables_all _ _ C) as CA'.
      assert (LN : length (tunable_clusters (c_r c)) = length (tunable_clusters (c_r src))) by (apply (F2_length _ _ _ TC)).
      assert (S0 : symmetric F A).
      { pose proof (ww_same (c_r src) ws I GW) as W. intros f v w J Hv Hw. destruct (proj1 (TW0 ws (weights_length (c_r src) ws GW))) with (f:=f) (v:=v) (w:=w) as [Es Y]; auto.
        - destruct J as [J X]. split; auto. unfold fv in *. rewrite ww_vars. exact X.
        - split; auto. intros i j Li Lj. unfold factors. rewrite (W f). auto. }
      assert (XP' : exposed (c_r c)).
      { intros d k v Jd Jk V. apply (F2_in_r _ _ _ TC) in Jd as (d0 & Jd0 & T). apply (F2_in_r _ _ _ T) in Jk as (f & Jf & ((Ef & _) & _)).
        rewrite Ef in V. destruct (XP d0 f v Jd0 Jf V) as (f' & w & Jf' & X & U).
        assert (Jl : In f' l) by (eapply Permutation_in; [exact PL|exact Jf']). apply (F2_in_l _ _ _ TW) in Jl as (k' & Jk' & (Ek & _)).
        exists k', w. split; [exact Jk'|]. split. { unfold factors in Ek. rewrite Ek. exact X. }
        intros U'. apply U. unfold unobserved in *.
        assert (Jw : In w (g_vars (r_g (c_r src)))). { apply (FV f' Jf'). unfold factors. destruct X as [X|X]; rewrite X; simpl; auto. }
        rewrite known_observed in U' by (eapply Permutation_in; [exact PV|exact Jw]). rewrite known_observed by exact Jw.
        pose proof (EV w Jw) as Z. unfold content, graph_of in Z. rewrite <- Z. exact U'. }
      assert (TN' : crf_trainable c (map order combs)).
      { split.
        - intros us Lu. rewrite LN in Lu. destruct (TW0 us Lu) as [A1 A2]. split.
          + apply (retuned_symmetric F F' A A' l (tunable_clusters (c_r src)) (tunable_clusters (c_r c)) us); auto; first [apply I|apply I'].
          + intros x J. apply in_map_iff in J as (y & <- & J). pose proof (cc_given y (proj2 US y J)) as EY.
            apply (retuned_positive OK F F' (given A y) (given A' (order y)) l (tunable_clusters (c_r src)) (tunable_clusters (c_r c)) us); auto; try first [apply I|apply I'].
        - intros v Hv. apply (twins_tree F F' A A' l PV EV PL TW v). apply TF. apply (twins_hidden A A' PV EV). exact Hv. }
      assert (EN' : enough floorf (info_percentage info) (length (map order combs))) by (rewrite map_length; exact EN).
      destruct (C52_crf_partial OK src false ws t es floorf rand combs info LS XP (conj TW0 TF) E SP L US EN GW) as (src' & Q1 & W1 & _).
      destruct (C52_crf_partial OK c false ws t es' floorf rand (map order combs) info LC XP' TN' E' SP' L (cc_usable combs US) EN' GW') as (s' & Q2 & W2 & _).
      assert (Z : ideal_training (length (tunable_clusters (c_r c))) (fun k => cond_gradient F' A' (tunable_clusters (c_r c)) (drawn floorf rand (map order combs) (info_percentage info) k)) t 0 ws =
        ideal_training (length (tunable_clusters (c_r src))) (fun k => cond_gradient F A (tunable_clusters (c_r src)) (drawn floorf rand combs (info_percentage info) k)) t 0 ws).
      { rewrite LN. apply ideal_same; [|apply (weights_length (c_r src) ws GW)]. intros k us Lu. rewrite drawn_map by exact (proj1 US).
        set (samples := drawn floorf rand combs (info_percentage info) k).
        assert (V : forall x, In x samples -> valid_comb (map vsize (sp_vars A)) x) by (intros x J; apply (proj2 US); eapply drawn_in; eauto; exact (proj1 US)).
        unfold cond_gradient.
        assert (Y : forall a b, Forall2 (Forall2 (tuned_as F F')) a b -> incl (concat a) (sp_facs A) ->
          map (fun d => (mean (sp_vars A') (map order samples) (features F' d) - mean_expected (with_weights F' (tunable_clusters (c_r c)) us) A' (map order samples) (features F' d))%num) b =
          map (fun d => (mean (sp_vars A) samples (features F d) - mean_expected (with_weights F (tunable_clusters (c_r src)) us) A samples (features F d))%num) a);
          [|exact (Y _ _ TC CA)].
        induction 1 as [|d d' a b T T' IH]; intros Ia; cbn [map]; [reflexivity|].
        rewrite IH by (intros f J; apply Ia; cbn [concat]; apply in_or_app; right; exact J).
        assert (CA0 : forall f, In f d -> In f (sp_facs A)) by (intros f J; apply Ia; cbn [concat]; apply in_or_app; left; exact J). f_equal. f_equal.
        - apply (same_mean F F' A A' ND FV PV d d' CA0 T samples V).
        - unfold mean_expected. rewrite map_length, sumL_map. f_equal. apply sumL_ext. intros x J. pose proof (cc_given x (V x J)) as EY.
          apply (retuned_expected OK F F' (given A x) (given A' (order x)) l (tunable_clusters (c_r src)) (tunable_clusters (c_r c)) us); auto; first [apply I|apply I']. }
      rewrite Z in Q2, W2. eexists. eexists. exists src', s'. split; [exact Q1|]. split; [exact Q2|]. split; [exact W1|exact W2].
    Qed.
  End Same.

  (** {1 The properties} *)
  (** The gradient of the conditional random field built from another one, for models
      whose hidden variables are joined by symmetric factors without cycles. The
      positions of the observed variables have to be in the order in which the map of
      the evidences is visited, as in C51. Missing: as in C51. *)
  Theorem C46_conditional_gradient_partial : forall (src : crf) e, clives false src -> env_ok e ->
    no_lone_variable (c_r src) -> all_listed (c_r src) -> clear_sharing (c_r src) -> distinct_names (c_r src) ->
    (exists v, seen (c_r src) v) -> ~ tunable_all_seen (c_r src) ->
    exists c, crf_ctor e (c_r src) false = Ret c (c_r c) /\
      forall it samples es es' n n', iter_samples it = Ok samples -> usable src samples ->
        (forall k, env_ok (es k)) -> (forall k, env_ok (es' k)) -> same_positions src es -> same_positions c es' -> 1 <= n -> 1 <= n' ->
        hidden_forest src -> (forall x, In x samples -> positive (weight (factors src) (content src)) (given (content src) x)) ->
        exists g t t', gradient es it n src = Ret g t /\ gradient es' (reordered (g_vars (graph_of src)) (g_vars (graph_of c)) it) n' c = Ret g t'.
  Proof.
    intros src e LS E NL AL CL DN SE TS.
    destruct (C46_conditional_partial (c_r src) e false (SRC_cond src LS) E NL AL CL DN SE TS) as (c & Q & SC & TC & _).
    exists c. split; [exact Q|]. exact (cc_gradient src c LS (CL_copy false src e c (c_r c) LS E Q) SC TC).
  Qed.
  (** A training of the conditional random field, and the same training of the one built
      from it, before the training of the other (they share the factors). *)
  Theorem C46_conditional_training_partial : forall (src : crf) e ws (t : trainer (N:=N)) floorf rand combs info, clives false src -> env_ok e ->
    no_lone_variable (c_r src) -> all_listed (c_r src) -> clear_sharing (c_r src) -> distinct_names (c_r src) ->
    (exists v, seen (c_r src) v) -> ~ tunable_all_seen (c_r src) ->
    exposed (c_r src) -> crf_trainable src combs -> get_weights (c_r src) = Ok ws ->
    1 <= info_threads info -> usable src combs -> enough floorf (info_percentage info) (length combs) ->
    exists c, crf_ctor e (c_r src) false = Ret c (c_r c) /\
      forall es es', (forall i k, env_ok (es i k)) -> (forall i k, env_ok (es' i k)) -> (forall i, same_positions src (es i)) -> (forall i, same_positions c (es' i)) ->
        exists (ends : bool) ws' src' s',
          train_crf floorf rand es (c_pos src) t combs info (c_r src) = (if ends then Ret tt src' else Thr src') /\
          train_crf floorf rand es' (c_pos c) t (map (reorder (g_vars (graph_of src)) (g_vars (graph_of c))) combs) info (c_r c) = (if ends then Ret tt s' else Thr s') /\
          get_weights src' = Ok ws' /\ get_weights s' = Ok ws'.
  Proof.
    intros src e ws t floorf rand combs info LS E NL AL CL DN SE TS XP TN GW L US EN.
    destruct (C46_conditional_partial (c_r src) e false (SRC_cond src LS) E NL AL CL DN SE TS) as (c & Q & SC & TC & GW' & _). rewrite GW in GW'.
    exists c. split; [exact Q|]. exact (cc_training src c LS (CL_copy false src e c (c_r c) LS E Q) SC TC ws t floorf rand combs info XP TN GW GW' L US EN).
  Qed.
End P.

(** {1 Examples} *)
(** The conditional random field of C51: B and C are observed. *)
Lemma a_new : clives false a_crf.
Proof. destruct (crf_of_made env_id a_field true) as [s Q]. vm_compute; reflexivity. eapply CL_field; [apply aH_built|apply a_reach|apply env_id_ok|exact Q]. Qed.
Lemma a_lone : no_lone_variable (c_r a_crf).
Proof. apply no_lone_variableb_ok. vm_compute. reflexivity. Qed.
Lemma a_listed : all_listed (c_r a_crf).
Proof. apply all_listedb_ok. vm_compute. reflexivity. Qed.
Lemma a_clear : clear_sharing (c_r a_crf).
Proof. apply (clearb_ok QcNum_ok). exact (ri_built _ (ch_r _ _ (source_coh (c_r a_crf) (SRC_cond a_crf a_new)))). vm_compute. reflexivity. Qed.
Lemma a_distinct : distinct_names (c_r a_crf).
Proof. apply distinct_namesb_ok. vm_compute. reflexivity. Qed.
Lemma a_seen : exists v, seen (c_r a_crf) v.
Proof. exists exB. apply seenb_spec. vm_compute. reflexivity. Qed.
Lemma a_unseen : ~ tunable_all_seen (c_r a_crf).
Proof. apply unseen_tunables_ok. vm_compute. reflexivity. Qed.
Lemma same_positions_intro (c : crf (N:=QcNum)) pos vs obs : c_pos c = pos -> observed_variables env_id (graph_of c) = obs -> g_vars (graph_of c) = vs ->
  Forall2 (fun i v => nth_error vs i = Some v) pos obs -> same_positions c (fun _ => env_id).
Proof. intros <- <- <- Q k. exact Q. Qed.
Lemma a_order : same_positions a_crf (fun _ => env_id).
Proof.
  apply (same_positions_intro a_crf [3; 4] [exD; exE; exA; exB; exC] [exB; exC]); [vm_compute; reflexivity|vm_compute; reflexivity|vm_compute; reflexivity|repeat constructor].
Qed.
Lemma a_order_again : same_positions (crf_of (crf_ctor env_id (c_r a_crf) false)) (fun _ => env_id).
Proof.
  apply (same_positions_intro _ [3; 4] [exD; exE; exA; exB; exC] [exB; exC]); [vm_compute; reflexivity|vm_compute; reflexivity|vm_compute; reflexivity|repeat constructor].
Qed.
Lemma crf_made (c : crf (N:=QcNum)) o s : o = Ret c s -> c = crf_of o.
Proof. intros ->. reflexivity. Qed.
Example C46_conditional_gradient_example : exists c g t t', crf_ctor env_id (c_r a_crf) false = Ret c (c_r c) /\
  gradient (fun _ => env_id) a_set 3 a_crf = Ret g t /\ gradient (fun _ => env_id) (reordered (g_vars (graph_of a_crf)) (g_vars (graph_of c)) a_set) 1 c = Ret g t'.
Proof.
  destruct (C46_conditional_gradient_partial QcNum_ok a_crf env_id a_new env_id_ok a_lone a_listed a_clear a_distinct a_seen a_unseen) as (c & Q & X).
  destruct (X a_set a_samples (fun _ => env_id) (fun _ => env_id) 3 1) as (g & t & t' & G1 & G2).
  - vm_compute. reflexivity.
  - apply usableb_ok. vm_compute. reflexivity.
  - intros _. exact env_id_ok.
  - intros _. exact env_id_ok.
  - exact a_order.
  - rewrite (crf_made _ _ _ Q). exact a_order_again.
  - repeat constructor.
  - repeat constructor.
  - apply hidden_forestb_ok. apply (clives_creach false). exact a_new. vm_compute. reflexivity.
  - apply givenb_ok. vm_compute. reflexivity.
  - exists c, g, t, t'. split; [exact Q|]. split; [exact G1|exact G2].
Qed.
Example C46_conditional_training_example : exists c (ends : bool) ws' src' s', crf_ctor env_id (c_r a_crf) false = Ret c (c_r c) /\
  train_crf qfloor t_rand (fun _ _ => env_id) (c_pos a_crf) (descent (q 1 2) 1) a_combs (mkTrainInfo 2 n1) (c_r a_crf) = (if ends then Ret tt src' else Thr src') /\
  train_crf qfloor t_rand (fun _ _ => env_id) (c_pos c) (descent (q 1 2) 1) (map (reorder (g_vars (graph_of a_crf)) (g_vars (graph_of c))) a_combs) (mkTrainInfo 2 n1) (c_r c) = (if ends then Ret tt s' else Thr s') /\
  get_weights src' = Ok ws' /\ get_weights s' = Ok ws'.
Proof.
  destruct (P_Train.get_weights_ok (c_r a_crf) (ch_r _ _ (source_coh (c_r a_crf) (SRC_cond a_crf a_new)))) as (ws & GW & _).
  destruct (C46_conditional_training_partial QcNum_ok a_crf env_id ws (descent (q 1 2) 1) qfloor t_rand a_combs (mkTrainInfo 2 n1)
    a_new env_id_ok a_lone a_listed a_clear a_distinct a_seen a_unseen) as (c & Q & X).
  - apply exposedb_ok. vm_compute. reflexivity.
  - apply crf_trainableb_ok. apply (clives_creach false). exact a_new. vm_compute. reflexivity.
  - exact GW.
  - repeat constructor.
  - apply usableb_ok. vm_compute. reflexivity.
  - left. reflexivity.
  - destruct (X (fun _ _ => env_id) (fun _ _ => env_id)) as (b & ws' & src' & s' & E1 & E2 & W1 & W2).
    + intros _ _. exact env_id_ok.
    + intros _ _. exact env_id_ok.
    + intros _. exact a_order.
    + intros _. rewrite (crf_made _ _ _ Q). exact a_order_again.
    + exists c, b, ws', src', s'. split; [exact Q|]. split; [exact E1|]. split; [exact E2|]. split; [exact W1|exact W2].
Qed.

Print Assumptions C46_conditional_gradient_partial.
Print Assumptions C46_conditional_training_partial.
