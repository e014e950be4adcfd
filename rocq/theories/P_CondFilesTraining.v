(** Properties C45 and C53 for the training of conditional random fields: a conditional
    random field is exported, the file is read, and a conditional random field is built
    from the random field that is read. Its gradient and its training are those of the
    first one, for training sets with the values listed in the order of its variables. *)
From Coq Require Import String List Arith Bool Lia Permutation Relations QArith Qcanon Field.
From Verif Require Import Res Num Categoric Combs Func FuncProofs GroupProofs FactorProofs FactorApi Special SpecialProofs
  Graph GraphLemmas Clusters Belief Query GraphInv EvidInv BeliefInv BigOp GraphSpec Hist P_Graph BeliefSpec JointSpec Sums BeliefHist
  Rebuild Train TrainHist Coherent TrainInv P_Categoric P_Factor Demo BeliefDemo TrainDemo P_Train P_Gradient P_GradientDemo P_Joint Separate FieldHist P_Field Plan CopyProofs P_Copy
  IO TextSpec TextProofs Json JsonRead JsonProofs P_Json Xml XmlProofs P_Xml P_FilesAnswers TrainSpec Gradient GradientRun P_CopyAnswers P_CopyGradient
  RealNum Gibbs Tree Cycle BPStep BPRun Exact Queries Parts Joint GibbsProofs Likelihood CRF CRFHist CRFInv CRFSpec CRFGradient Trainer TrainerSpec TrainerProofs P_CRFDemo P_Trainer P_TrainerDemo
  CRF CRFHist CRFInv CRFSpec CRFGradient P_CRF P_CRFDemo P_CRFGradient P_CRFGradientDemo P_CondAnswers P_CondCopy P_CondCopyAnswers P_CopyTraining
  CondCopy CondSafeSpec CondSafe P_CondSafe P_CondFiles P_CondFilesAnswers P_FilesTraining P_CondCopyTraining.
Import ListNotations.
Open Scope nat_scope.

Section P.
  Context {N : num} (OK : num_ok N).
  Notation crf := (crf (N:=N)).

  Lemma given_by_names rho A A' x : NoDup (map vname (sp_vars A)) -> NoDup (map vkey (sp_vars A)) -> NoDup (map vkey (sp_vars A')) -> Permutation (map rho (sp_vars A)) (sp_vars A') ->
    (forall v, In v (sp_vars A) -> vname (rho v) = vname v) ->
    (forall v, In v (sp_vars A) -> sp_evidence A' (rho v) = sp_evidence A v) -> length x = length (sp_vars A) ->
    forall v, In v (sp_vars A) -> sp_evidence (given A' (by_names (sp_vars A) (sp_vars A') x)) (rho v) = sp_evidence (given A x) v.
  Proof.
    intros NN NK NK' PV RN EV L v J. pose proof (EV v J) as Ev. unfold sp_evidence in *.
    change (vname v, vsize v) with (vkey v) in *. change (vname (rho v), vsize (rho v)) with (vkey (rho v)) in *.
    assert (J' : In (rho v) (sp_vars A')) by (eapply Permutation_in; [exact PV|apply in_map; exact J]). pose proof J as J0.
    apply In_nth_error in J as [a Qa]. apply In_nth_error in J' as [a' Qa'].
    rewrite (given_ev A x a v NK L Qa), (given_ev A' _ a' (rho v) NK' (map_length _ _ : length (by_names (sp_vars A) (sp_vars A') x) = _) Qa'), Ev. destruct (sp_ev A (vkey v)); auto.
    unfold by_names. rewrite nth_error_map, Qa'. cbn [option_map]. rewrite (RN v J0), (value_named_val _ x v NN L J0).
    assert (X : exists y, nth_error x a = Some y).
    { destruct (nth_error x a) as [y|] eqn:Z; eauto. apply nth_error_None in Z. assert (W : nth_error (sp_vars A) a <> None) by congruence. apply nth_error_Some in W. lia. }
    destruct X as [y Qy]. rewrite Qy. f_equal. apply (val_combine _ (NoDup_map_inv _ _ NK) x a v y Qa Qy).
  Qed.

  Section Same.
    Variables (rnd : N -> N) (src c : crf) (rho : var -> var).
    Hypothesis LS : clives false src.
    Hypothesis LC : clives false c.
    Hypothesis PR : printable (c_r src).
    Hypothesis RC : read_content rnd rho (c_r src) (c_r c).
    Hypothesis TR : Forall2 (Forall2 (tuned_reads rnd rho (r_h (c_r src)) (r_h (c_r c)))) (tunable_clusters (c_r src)) (tunable_clusters (c_r c)).
    Hypothesis EX : exact_values rnd (c_r src).
    Notation order := (by_names (g_vars (graph_of src)) (g_vars (graph_of c))).
    Notation F := (factors src).
    Notation F' := (factors c).
    Notation A := (content src).
    Notation A' := (content c).
    Let CS : coh False (c_r src) := cc_coh src LS.
    Let C : coh False (c_r c) := cc_coh c LC.

    Lemma cf_parts : NoDup (sp_vars A) /\ NoDup (sp_vars A') /\
      (forall f, In f (sp_facs A) -> incl (f_vars (F f)) (sp_vars A)) /\ (forall f, In f (sp_facs A') -> incl (f_vars (F' f)) (sp_vars A')) /\
      (forall v, In v (sp_vars A) -> vsize (rho v) = vsize v) /\
      (forall v w, In v (sp_vars A) -> In w (sp_vars A) -> rho v = rho w -> v = w) /\
      Permutation (map rho (sp_vars A)) (sp_vars A') /\ (forall v, In v (sp_vars A) -> sp_evidence A' (rho v) = sp_evidence A v) /\
      exists l, Permutation (sp_facs A) l /\ Forall2 (same_values rho F F') l (sp_facs A').
    Proof.
      destruct (rd_parts rnd (c_r src) (c_r c) rho CS C RC EX) as (ND & ND' & FV & FV' & PV & EV & l & PL & TW).
      split; [exact ND|]. split; [exact ND'|]. split; [exact FV|]. split; [exact FV'|]. split; [exact (rd_size rnd _ _ rho RC)|].
      split; [exact (rd_inj rnd _ _ rho PR RC)|]. split; [exact PV|]. split; [exact EV|]. exists l. split; [exact PL|exact TW].
    Qed.
    Lemma cf_given x : valid_comb (map vsize (sp_vars A)) x -> forall v, In v (sp_vars A) -> sp_evidence (given A' (order x)) (rho v) = sp_evidence (given A x) v.
    Proof.
      intros V. destruct cf_parts as (_ & _ & _ & _ & _ & _ & PV & EV & _).
      apply (given_by_names rho A A' x (proj1 PR) (co_vars _ _ _ (proj1 (ch_inv _ _ CS))) (co_vars _ _ _ (proj1 (ch_inv _ _ C))) PV (rd_name rnd _ _ rho RC) EV (comb_length _ _ V)).
    Qed.
    Lemma cf_usable samples : usable src samples -> usable c (map order samples).
    Proof. exact (ft_valid rnd (c_r src) (c_r c) rho CS C PR RC EX samples). Qed.
    Lemma cf_images : Forall2 (Forall2 (same_images rho F F')) (tunable_clusters (c_r src)) (tunable_clusters (c_r c)).
    Proof. exact (ft_images rnd (c_r src) (c_r c) rho CS TR EX). Qed.
    Lemma cf_gradient it samples es es' n n' : iter_samples it = Ok samples -> usable src samples ->
      (forall k, env_ok (es k)) -> (forall k, env_ok (es' k)) -> same_positions src es -> same_positions c es' -> 1 <= n -> 1 <= n' ->
      hidden_forest src -> (forall x, In x samples -> positive (weight F A) (given A x)) ->
      exists g t t', gradient es it n src = Ret g t /\ gradient es' (set_by_names (g_vars (graph_of src)) (g_vars (graph_of c)) it) n' c = Ret g t'.
    Proof.
      intros IS US E E' SP SP' L L' [SY TF] PO. destruct cf_parts as (ND & ND' & FV & FV' & RS & RI & PV & EV & l & PL & TW).
      assert (HF' : hidden_forest c).
      { split. { eapply (rn_symmetric rho F F' A A' l); eauto. }
        intros u Hu. destruct (rn_from rho A A' PV u (proj1 Hu)) as (v & Jv & ->). apply (rn_hidden rho A A' PV EV v Jv) in Hu.
        eapply (rn_tree rho F F' A A' l); eauto. }
      assert (PO' : forall x, In x (map order samples) -> positive (weight F' A') (given A' x)).
      { intros x J. apply in_map_iff in J as (y & <- & J).
        pose proof (cf_given y (proj2 US y J)) as EY. eapply (rn_positive OK rho F F' (given A y) (given A' (order y)) l); eauto. }
      destruct (scoped_crf OK src false es it n samples LS E SP L (conj SY TF) IS US PO) as (t & Qt & _).
      destruct (scoped_crf OK c false es' _ n' _ LC E' SP' L' HF' (set_by_names_samples _ _ _ _ IS) (cf_usable samples US) PO') as (t' & Qt' & _).
      eexists. exists t, t'. split; [exact Qt|]. rewrite Qt'. f_equal.
      pose proof (coh_good OK False (c_r src) CS) as G. pose proof (coh_good OK False (c_r c) C) as G'.
      assert (CA : incl (concat (tunable_clusters (c_r src))) (sp_facs A)) by exact (tunables_all _ _ CS).
      assert (CA' : incl (concat (tunable_clusters (c_r c))) (sp_facs A')) by exact (tunables_all _ _ C).
      assert (Y : forall a b, Forall2 (Forall2 (same_images rho F F')) a b -> incl (concat a) (sp_facs A) -> incl (concat b) (sp_facs A') ->
        map (fun d => (mean (g_vars (graph_of c)) (map order samples) (features F' d) - mean_expected F' A' (map order samples) (features F' d))%num) b =
        map (fun d => (mean (g_vars (graph_of src)) samples (features F d) - mean_expected F A samples (features F d))%num) a); [|exact (Y _ _ cf_images CA CA')].
      induction 1 as [|d d' a b T T' IH]; intros I I'; cbn [map]; [reflexivity|].
      rewrite IH by (intros f J; first [apply I|apply I']; cbn [concat]; apply in_or_app; right; exact J).
      assert (C1 : forall f, In f d -> In f (sp_facs A)) by (intros f J; apply I; cbn [concat]; apply in_or_app; left; exact J).
      assert (C1' : forall f, In f d' -> In f (sp_facs A')) by (intros f J; apply I'; cbn [concat]; apply in_or_app; left; exact J).
      f_equal. f_equal.
      - eapply (renamed_mean rho F F' A A'); eauto. exact (proj1 PR). exact (rd_name rnd _ _ rho RC). exact (proj2 US).
      - unfold mean_expected. rewrite map_length, sumL_map. f_equal. apply sumL_ext. intros x J. pose proof (cf_given x (proj2 US x J)) as EY.
        eapply (renamed_expected OK rho F F' (given A x) (given A' (order x)) l [] [] []); eauto; try (intros z []); try constructor.
        + exact (ri_nd _ (ch_r _ _ CS)).
        + exact (ri_nd _ (ch_r _ _ C)).
    Qed.
    Lemma cf_training ws (t : trainer (N:=N)) floorf rand combs info : exposed (c_r src) -> crf_trainable src combs ->
      get_weights (c_r src) = Ok ws -> get_weights (c_r c) = Ok (map rnd ws) ->
      1 <= info_threads info -> usable src combs -> enough floorf (info_percentage info) (length combs) ->
      forall es es', (forall i k, env_ok (es i k)) -> (forall i k, env_ok (es' i k)) -> (forall i, same_positions src (es i)) -> (forall i, same_positions c (es' i)) ->
        exists (ends : bool) ws' src' s',
          train_crf floorf rand es (c_pos src) t combs info (c_r src) = (if ends then Ret tt src' else Thr src') /\
          train_crf floorf rand es' (c_pos c) t (map order combs) info (c_r c) = (if ends then Ret tt s' else Thr s') /\
          get_weights src' = Ok ws' /\ get_weights s' = Ok ws'.
    Proof.
      intros XP [TW0 TF] GW GW' L US EN es es' E E' SP SP'. rewrite (ft_weights rnd (c_r src) CS EX ws GW) in GW'.
      destruct cf_parts as (ND & ND' & FV & FV' & RS & RI & PV & EV & l & PL & TW). pose proof cf_images as TC. pose proof (rd_name rnd _ _ rho RC) as RN.
      pose proof (ch_r _ _ CS) as I. pose proof (ch_r _ _ C) as I'.
      pose proof (coh_good OK False (c_r src) CS) as G. pose proof (coh_good OK False (c_r c) C) as G'.
      assert (CA : incl (concat (tunable_clusters (c_r src))) (sp_facs A)) by exact (tunables_all _ _ CS).
      assert (CA' : incl (concat (tunable_clusters (c_r c))) (sp_facs A')) by exact (tunables_all _ _ C).
      assert (LN : length (tunable_clusters (c_r c)) = length (tunable_clusters (c_r src))) by (apply (F2_length _ _ _ TC)).
      assert (S0 : symmetric F A).
      { pose proof (ww_same (c_r src) ws I GW) as W. intros f v w J Hv Hw. destruct (proj1 (TW0 ws (weights_length (c_r src) ws GW))) with (f:=f) (v:=v) (w:=w) as [Es Y]; auto.
        - destruct J as [J X]. split; auto. unfold fv in *. rewrite ww_vars. exact X.
        - split; auto. intros i j Li Lj. unfold factors. rewrite (W f). auto. }
      assert (XP' : exposed (c_r c)).
      { intros d k u Jd Jk V. apply (F2_in_r _ _ _ TC) in Jd as (d0 & Jd0 & T). apply (F2_in_r _ _ _ T) in Jk as (f & Jf & ((Ef & _) & _)).
        unfold factors in Ef. rewrite Ef in V.
        assert (X0 : exists v, f_vars (r_h (c_r src) f) = [v] /\ u = rho v).
        { destruct (f_vars (r_h (c_r src) f)) as [|v [|? ?]]; cbn [map] in V; inversion V. exists v. auto. }
        destruct X0 as (v & V0 & ->). destruct (XP d0 f v Jd0 Jf V0) as (f' & w & Jf' & X & U).
        assert (Jl : In f' l) by (eapply Permutation_in; [exact PL|exact Jf']). apply (F2_in_l _ _ _ TW) in Jl as (k' & Jk' & (Ek & _)).
        exists k', (rho w). split; [exact Jk'|]. split. { unfold factors in Ek. rewrite Ek. destruct X as [X|X]; rewrite X; cbn [map]; auto. }
        intros U'. apply U. unfold unobserved in *.
        assert (Jw : In w (g_vars (r_g (c_r src)))). { apply (FV f' Jf'). unfold factors. destruct X as [X|X]; rewrite X; simpl; auto. }
        rewrite known_observed in U' by (eapply Permutation_in; [exact PV|apply in_map; exact Jw]). rewrite known_observed by exact Jw.
        pose proof (EV w Jw) as Z. unfold content, graph_of in Z. rewrite <- Z. exact U'. }
      assert (TN' : crf_trainable c (map order combs)).
      { split.
        - intros us Lu. rewrite LN in Lu. destruct (TW0 us Lu) as [A1 A2]. split.
          + eapply (renamed_symmetric rho F F' A A' l (tunable_clusters (c_r src)) (tunable_clusters (c_r c)) us); eauto; first [apply I|apply I'].
          + intros x J. apply in_map_iff in J as (y & <- & J). pose proof (cf_given y (proj2 US y J)) as EY.
            eapply (renamed_positive OK rho F F' (given A y) (given A' (order y)) l (tunable_clusters (c_r src)) (tunable_clusters (c_r c)) us); eauto; try first [apply I|apply I'].
        - intros u Hu. destruct (rn_from rho A A' PV u (proj1 Hu)) as (v & Jv & ->). apply (rn_hidden rho A A' PV EV v Jv) in Hu.
          eapply (rn_tree rho F F' A A' l); eauto. }
      assert (EN' : enough floorf (info_percentage info) (length (map order combs))) by (rewrite map_length; exact EN).
      destruct (C52_crf_partial OK src false ws t es floorf rand combs info LS XP (conj TW0 TF) E SP L US EN GW) as (src' & Q1 & W1 & _).
      destruct (C52_crf_partial OK c false ws t es' floorf rand (map order combs) info LC XP' TN' E' SP' L (cf_usable combs US) EN' GW') as (s' & Q2 & W2 & _).
      assert (Z : ideal_training (length (tunable_clusters (c_r c))) (fun k => cond_gradient F' A' (tunable_clusters (c_r c)) (drawn floorf rand (map order combs) (info_percentage info) k)) t 0 ws =
        ideal_training (length (tunable_clusters (c_r src))) (fun k => cond_gradient F A (tunable_clusters (c_r src)) (drawn floorf rand combs (info_percentage info) k)) t 0 ws).
      { rewrite LN. apply ideal_same; [|apply (weights_length (c_r src) ws GW)]. intros k us Lu. rewrite drawn_map by exact (proj1 US).
        set (samples := drawn floorf rand combs (info_percentage info) k).
        assert (V : forall x, In x samples -> valid_comb (map vsize (sp_vars A)) x) by (intros x J; apply (proj2 US); eapply drawn_in; eauto; exact (proj1 US)).
        unfold cond_gradient.
        assert (Y : forall a b, Forall2 (Forall2 (same_images rho F F')) a b -> incl (concat a) (sp_facs A) -> incl (concat b) (sp_facs A') ->
          map (fun d => (mean (sp_vars A') (map order samples) (features F' d) - mean_expected (with_weights F' (tunable_clusters (c_r c)) us) A' (map order samples) (features F' d))%num) b =
          map (fun d => (mean (sp_vars A) samples (features F d) - mean_expected (with_weights F (tunable_clusters (c_r src)) us) A samples (features F d))%num) a);
          [|exact (Y _ _ TC CA CA')].
        induction 1 as [|d d' a b T T' IH]; intros Ia Ib; cbn [map]; [reflexivity|].
        rewrite IH by (intros f J; first [apply Ia|apply Ib]; cbn [concat]; apply in_or_app; right; exact J).
        assert (C1 : forall f, In f d -> In f (sp_facs A)) by (intros f J; apply Ia; cbn [concat]; apply in_or_app; left; exact J).
        assert (C1' : forall f, In f d' -> In f (sp_facs A')) by (intros f J; apply Ib; cbn [concat]; apply in_or_app; left; exact J).
        f_equal. f_equal.
        - eapply (renamed_mean rho F F' A A'); eauto. exact (proj1 PR).
        - unfold mean_expected. rewrite map_length, sumL_map. f_equal. apply sumL_ext. intros x J. pose proof (cf_given x (V x J)) as EY.
          eapply (renamed_expected OK rho F F' (given A x) (given A' (order x)) l (tunable_clusters (c_r src)) (tunable_clusters (c_r c)) us); eauto; first [apply I|apply I']. }
      rewrite Z in Q2, W2. eexists. eexists. exists src', s'. split; [exact Q1|]. split; [exact Q2|]. split; [exact W1|exact W2].
    Qed.
  End Same.

  (** {1 The properties} *)
  Variables (fprint : N -> string) (atof : string -> N).
  Hypothesis fprint_plain : forall x, JsonRead.plain (fprint x).
  Notation rnd := (fun x => atof (fprint x)).
  Hypothesis rnd_zero : rnd n0 = n0.
  Hypothesis rnd_nonneg : forall x, (n0 <= x)%num -> (n0 <= rnd x)%num.

  Lemma again_lives : forall (c : crf) e e' e'' h' top' next copy, clives false c -> env_ok e -> env_ok e' -> env_ok e'' ->
    (forall f, built (h' f)) -> printable (c_r c) -> no_lone_variable (c_r c) -> all_listed (c_r c) -> clear_sharing (c_r c) ->
    (exists v, seen (c_r c) v) -> ~ tunable_all_seen (c_r c) ->
    exists j s rho c', export_json fprint e true (c_r c) = Ok j /\ import_json atof e' true next j (r_empty h' top') = Ret tt s /\
      crf_ctor e'' s copy = Ret c' (c_r c') /\ clives false c' /\
      read_content rnd rho (c_r c) (c_r c') /\
      Forall2 (Forall2 (tuned_reads rnd rho (r_h (c_r c)) (r_h (c_r c')))) (tunable_clusters (c_r c)) (tunable_clusters (c_r c')) /\
      exists ws, get_weights (c_r c) = Ok ws /\ get_weights (c_r c') = Ok (map rnd ws).
  Proof.
    intros c e e' e'' h' top' next copy L E E' E'' Hb' PR NL AL CL SV TS.
    destruct (C45_conditional_partial OK fprint atof fprint_plain rnd_zero rnd_nonneg c e e' h' top' next L E E' Hb' PR NL AL CL) as (j & s & rho & Q1 & Q2 & _ & _ & _ & R).
    destruct (C45_conditional_again_partial OK fprint atof fprint_plain rnd_zero rnd_nonneg c e e' e'' h' top' next copy L E E' E'' Hb' PR NL AL CL SV TS)
      as (j1 & s1 & rho1 & c' & P1 & P2 & P3 & P4).
    assert (Ej : j1 = j) by congruence. subst j1. assert (Es : s1 = s) by congruence. subst s1.
    exists j, s, rho1, c'. split; [exact Q1|]. split; [exact Q2|]. split; [exact P3|]. split; [|exact P4].
    eapply CL_field; [exact Hb'| |exact E''|exact P3]. eapply rreach_mono; [|exact R]. intros; exact Logic.I.
  Qed.

  (** Missing: as in C51 (cycles, asymmetric factors, positions of the observed variables
      in another order than the map), and models with a value changed by the printing. *)
  Theorem C45_conditional_gradient_partial : forall (c : crf) e e' e'' h' top' next copy, clives false c -> env_ok e -> env_ok e' -> env_ok e'' ->
    (forall f, built (h' f)) -> printable (c_r c) -> no_lone_variable (c_r c) -> all_listed (c_r c) -> clear_sharing (c_r c) ->
    (exists v, seen (c_r c) v) -> ~ tunable_all_seen (c_r c) -> exact_values rnd (c_r c) ->
    exists j s c', export_json fprint e true (c_r c) = Ok j /\ import_json atof e' true next j (r_empty h' top') = Ret tt s /\
      crf_ctor e'' s copy = Ret c' (c_r c') /\
      forall it samples es es' n n', iter_samples it = Ok samples -> usable c samples ->
        (forall k, env_ok (es k)) -> (forall k, env_ok (es' k)) -> same_positions c es -> same_positions c' es' -> 1 <= n -> 1 <= n' ->
        hidden_forest c -> (forall x, In x samples -> positive (weight (factors c) (content c)) (given (content c) x)) ->
        exists g t t', gradient es it n c = Ret g t /\ gradient es' (set_by_names (g_vars (graph_of c)) (g_vars (graph_of c')) it) n' c' = Ret g t'.
  Proof.
    intros c e e' e'' h' top' next copy L E E' E'' Hb' PR NL AL CL SV TS EX.
    destruct (again_lives c e e' e'' h' top' next copy L E E' E'' Hb' PR NL AL CL SV TS) as (j & s & rho & c' & Q1 & Q2 & Q3 & L' & RC & TR & _).
    exists j, s, c'. split; [exact Q1|]. split; [exact Q2|]. split; [exact Q3|]. exact (cf_gradient rnd c c' rho L L' PR RC TR EX).
  Qed.
  Theorem C45_conditional_training_partial : forall (c : crf) e e' e'' h' top' next copy ws (t : trainer (N:=N)) floorf rand combs info, clives false c -> env_ok e -> env_ok e' -> env_ok e'' ->
    (forall f, built (h' f)) -> printable (c_r c) -> no_lone_variable (c_r c) -> all_listed (c_r c) -> clear_sharing (c_r c) ->
    (exists v, seen (c_r c) v) -> ~ tunable_all_seen (c_r c) -> exact_values rnd (c_r c) ->
    exposed (c_r c) -> crf_trainable c combs -> get_weights (c_r c) = Ok ws ->
    1 <= info_threads info -> usable c combs -> enough floorf (info_percentage info) (length combs) ->
    exists j s c', export_json fprint e true (c_r c) = Ok j /\ import_json atof e' true next j (r_empty h' top') = Ret tt s /\
      crf_ctor e'' s copy = Ret c' (c_r c') /\
      forall es es', (forall i k, env_ok (es i k)) -> (forall i k, env_ok (es' i k)) -> (forall i, same_positions c (es i)) -> (forall i, same_positions c' (es' i)) ->
        exists (ends : bool) ws' src' s',
          train_crf floorf rand es (c_pos c) t combs info (c_r c) = (if ends then Ret tt src' else Thr src') /\
          train_crf floorf rand es' (c_pos c') t (map (by_names (g_vars (graph_of c)) (g_vars (graph_of c'))) combs) info (c_r c') = (if ends then Ret tt s' else Thr s') /\
          get_weights src' = Ok ws' /\ get_weights s' = Ok ws'.
  Proof.
    intros c e e' e'' h' top' next copy ws t floorf rand combs info L E E' E'' Hb' PR NL AL CL SV TS EX XP TN GW LT US EN.
    destruct (again_lives c e e' e'' h' top' next copy L E E' E'' Hb' PR NL AL CL SV TS) as (j & s & rho & c' & Q1 & Q2 & Q3 & L' & RC & TR & (ws0 & W & W')).
    rewrite GW in W. injection W as <-.
    exists j, s, c'. split; [exact Q1|]. split; [exact Q2|]. split; [exact Q3|]. exact (cf_training rnd c c' rho L L' PR RC TR EX ws t floorf rand combs info XP TN GW W' LT US EN).
  Qed.

  Variable place : list nat -> list nat.
  Hypothesis OR : orderly place.
  Variable files : string -> option string.
  Variable prefix : string.
  Theorem C53_conditional_gradient_partial : forall (c : crf) e e' e'' h' top' next copy, clives false c -> env_ok e -> env_ok e' -> env_ok e'' ->
    (forall f, built (h' f)) -> printable (c_r c) -> no_lone_variable (c_r c) -> all_listed (c_r c) -> clear_sharing (c_r c) ->
    (exists v, seen (c_r c) v) -> ~ tunable_all_seen (c_r c) -> exact_values rnd (c_r c) ->
    exists x, export_xml fprint e true (c_r c) = Ok x /\ forall x', reads place x x' ->
    exists s c', import_xml atof place files prefix e' true next x' (r_empty h' top') = Ret tt s /\
      crf_ctor e'' s copy = Ret c' (c_r c') /\
      forall it samples es es' n n', iter_samples it = Ok samples -> usable c samples ->
        (forall k, env_ok (es k)) -> (forall k, env_ok (es' k)) -> same_positions c es -> same_positions c' es' -> 1 <= n -> 1 <= n' ->
        hidden_forest c -> (forall x, In x samples -> positive (weight (factors c) (content c)) (given (content c) x)) ->
        exists g t t', gradient es it n c = Ret g t /\ gradient es' (set_by_names (g_vars (graph_of c)) (g_vars (graph_of c')) it) n' c' = Ret g t'.
  Proof.
    intros c e e' e'' h' top' next copy L E E' E'' Hb' PR NL AL CL SV TS EX.
    destruct (C45_conditional_gradient_partial c e e' e'' h' top' next copy L E E' E'' Hb' PR NL AL CL SV TS EX) as (j & s & c' & Q1 & Q2 & Q3).
    destruct (same_file fprint atof fprint_plain place OR files prefix False (c_r c) e true j (cc_coh c L) E PR Q1) as (x & T1 & T2).
    exists x. split; [exact T1|]. intros x' RT. exists s, c'. rewrite (T2 x' e' true next _ RT). split; [exact Q2|exact Q3].
  Qed.
  Theorem C53_conditional_training_partial : forall (c : crf) e e' e'' h' top' next copy ws (t : trainer (N:=N)) floorf rand combs info, clives false c -> env_ok e -> env_ok e' -> env_ok e'' ->
    (forall f, built (h' f)) -> printable (c_r c) -> no_lone_variable (c_r c) -> all_listed (c_r c) -> clear_sharing (c_r c) ->
    (exists v, seen (c_r c) v) -> ~ tunable_all_seen (c_r c) -> exact_values rnd (c_r c) ->
    exposed (c_r c) -> crf_trainable c combs -> get_weights (c_r c) = Ok ws ->
    1 <= info_threads info -> usable c combs -> enough floorf (info_percentage info) (length combs) ->
    exists x, export_xml fprint e true (c_r c) = Ok x /\ forall x', reads place x x' ->
    exists s c', import_xml atof place files prefix e' true next x' (r_empty h' top') = Ret tt s /\
      crf_ctor e'' s copy = Ret c' (c_r c') /\
      forall es es', (forall i k, env_ok (es i k)) -> (forall i k, env_ok (es' i k)) -> (forall i, same_positions c (es i)) -> (forall i, same_positions c' (es' i)) ->
        exists (ends : bool) ws' src' s',
          train_crf floorf rand es (c_pos c) t combs info (c_r c) = (if ends then Ret tt src' else Thr src') /\
          train_crf floorf rand es' (c_pos c') t (map (by_names (g_vars (graph_of c)) (g_vars (graph_of c'))) combs) info (c_r c') = (if ends then Ret tt s' else Thr s') /\
          get_weights src' = Ok ws' /\ get_weights s' = Ok ws'.
  Proof.
    intros c e e' e'' h' top' next copy ws t floorf rand combs info L E E' E'' Hb' PR NL AL CL SV TS EX XP TN GW LT US EN.
    destruct (C45_conditional_training_partial c e e' e'' h' top' next copy ws t floorf rand combs info L E E' E'' Hb' PR NL AL CL SV TS EX XP TN GW LT US EN) as (j & s & c' & Q1 & Q2 & Q3).
    destruct (same_file fprint atof fprint_plain place OR files prefix False (c_r c) e true j (cc_coh c L) E PR Q1) as (x & T1 & T2).
    exists x. split; [exact T1|]. intros x' RT. exists s, c'. rewrite (T2 x' e' true next _ RT). split; [exact Q2|exact Q3].
  Qed.
End P.

(** {1 Examples} *)
(** The conditional random field of C51, read from its file and built again. *)
Notation a_text := (text_of (c_r a_crf)).
Notation a_read := (state_of (import_json read6 env_id true 40 a_text (r_empty gH 6))).
Notation a_again := (crf_of (crf_ctor env_id a_read true)).
Lemma a_print : printable (c_r a_crf).
Proof. apply printableb_ok. vm_compute. reflexivity. Qed.
Lemma a_exact : exact_values rnd6 (c_r a_crf).
Proof. apply exactb_ok. vm_compute. reflexivity. Qed.
Lemma a_order_read : same_positions a_again (fun _ => env_id).
Proof. apply (same_positions_intro _ _ _ _ eq_refl eq_refl eq_refl). vm_compute. repeat constructor. Qed.
Lemma a_usable : usable a_crf a_samples.
Proof. apply usableb_ok. vm_compute. reflexivity. Qed.
Lemma a_usable_all : usable a_crf a_combs.
Proof. apply usableb_ok. vm_compute. reflexivity. Qed.
Lemma a_hidden : hidden_forest a_crf.
Proof. apply hidden_forestb_ok. apply (clives_creach false). exact a_new. vm_compute. reflexivity. Qed.
Lemma a_given : forall x, In x a_samples -> positive (weight (factors a_crf) (content a_crf)) (given (content a_crf) x).
Proof. apply givenb_ok. vm_compute. reflexivity. Qed.
Lemma a_exposed : exposed (c_r a_crf).
Proof. apply exposedb_ok. vm_compute. reflexivity. Qed.
Lemma a_train : crf_trainable a_crf a_combs.
Proof. apply crf_trainableb_ok. apply (clives_creach false). exact a_new. vm_compute. reflexivity. Qed.
Lemma a_iter : iter_samples a_set = Ok a_samples.
Proof. vm_compute. reflexivity. Qed.
Lemma read_made j s c : export_json print6 env_id true (c_r a_crf) = Ok j -> import_json read6 env_id true 40 j (r_empty gH 6) = Ret tt s ->
  crf_ctor env_id s true = Ret c (c_r c) -> c = a_again.
Proof.
  intros Q1 Q2 Q3. assert (Ej : j = a_text) by (unfold text_of; rewrite Q1; reflexivity).
  assert (Es : s = state_of (import_json read6 env_id true 40 j (r_empty gH 6))) by (rewrite Q2; reflexivity).
  rewrite Ej in Es. rewrite Es in Q3. exact (crf_made _ _ _ Q3).
Qed.
Example C45_conditional_gradient_example : exists j s c' g t t', export_json print6 env_id true (c_r a_crf) = Ok j /\
  import_json read6 env_id true 40 j (r_empty gH 6) = Ret tt s /\ crf_ctor env_id s true = Ret c' (c_r c') /\
  gradient (fun _ => env_id) a_set 3 a_crf = Ret g t /\ gradient (fun _ => env_id) (set_by_names (g_vars (graph_of a_crf)) (g_vars (graph_of c')) a_set) 1 c' = Ret g t'.
Proof.
  destruct (C45_conditional_gradient_partial QcNum_ok print6 read6 print6_plain read6_zero read6_nonneg a_crf env_id env_id env_id gH 6 40 true a_new env_id_ok env_id_ok env_id_ok gH_built
    a_print a_lone a_listed a_clear a_seen a_unseen a_exact) as (j & s & c' & Q1 & Q2 & Q3 & X).
  destruct (X a_set a_samples (fun _ => env_id) (fun _ => env_id) 3 1 a_iter a_usable) as (g & t & t' & G1 & G2).
  - intros _. exact env_id_ok.
  - intros _. exact env_id_ok.
  - exact a_order.
  - rewrite (read_made _ _ _ Q1 Q2 Q3). exact a_order_read.
  - repeat constructor.
  - repeat constructor.
  - exact a_hidden.
  - exact a_given.
  - exists j, s, c', g, t, t'. split; [exact Q1|]. split; [exact Q2|]. split; [exact Q3|]. split; [exact G1|exact G2].
Qed.
Example C45_conditional_training_example : exists j s c' (ends : bool) ws' src' s', export_json print6 env_id true (c_r a_crf) = Ok j /\
  import_json read6 env_id true 40 j (r_empty gH 6) = Ret tt s /\ crf_ctor env_id s true = Ret c' (c_r c') /\
  train_crf qfloor t_rand (fun _ _ => env_id) (c_pos a_crf) (descent (q 1 2) 1) a_combs (mkTrainInfo 2 n1) (c_r a_crf) = (if ends then Ret tt src' else Thr src') /\
  train_crf qfloor t_rand (fun _ _ => env_id) (c_pos c') (descent (q 1 2) 1) (map (by_names (g_vars (graph_of a_crf)) (g_vars (graph_of c'))) a_combs) (mkTrainInfo 2 n1) (c_r c') = (if ends then Ret tt s' else Thr s') /\
  get_weights src' = Ok ws' /\ get_weights s' = Ok ws'.
Proof.
  destruct (P_Train.get_weights_ok (c_r a_crf) (ch_r _ _ (cc_coh a_crf a_new))) as (ws & GW & _).
  destruct (C45_conditional_training_partial QcNum_ok print6 read6 print6_plain read6_zero read6_nonneg a_crf env_id env_id env_id gH 6 40 true ws (descent (q 1 2) 1) qfloor t_rand a_combs (mkTrainInfo 2 n1)
    a_new env_id_ok env_id_ok env_id_ok gH_built a_print a_lone a_listed a_clear a_seen a_unseen a_exact a_exposed a_train GW) as (j & s & c' & Q1 & Q2 & Q3 & X).
  - repeat constructor.
  - exact a_usable_all.
  - left. reflexivity.
  - destruct (X (fun _ _ => env_id) (fun _ _ => env_id)) as (b & ws' & src' & s' & E1 & E2 & W1 & W2).
    + intros _ _. exact env_id_ok.
    + intros _ _. exact env_id_ok.
    + intros _. exact a_order.
    + intros _. rewrite (read_made _ _ _ Q1 Q2 Q3). exact a_order_read.
    + exists j, s, c', b, ws', src', s'. split; [exact Q1|]. split; [exact Q2|]. split; [exact Q3|]. split; [exact E1|]. split; [exact E2|]. split; [exact W1|exact W2].
Qed.
Notation a_xread := (state_of (import_xml read6 at_front no_file "" env_id true 40 (again at_front (xml_of (c_r a_crf))) (r_empty gH 6))).
Notation a_xagain := (crf_of (crf_ctor env_id a_xread false)).
Lemma a_order_xread : same_positions a_xagain (fun _ => env_id).
Proof. apply (same_positions_intro _ _ _ _ eq_refl eq_refl eq_refl). vm_compute. repeat constructor. Qed.
Lemma xread_made x s c : export_xml print6 env_id true (c_r a_crf) = Ok x -> import_xml read6 at_front no_file "" env_id true 40 (again at_front x) (r_empty gH 6) = Ret tt s ->
  crf_ctor env_id s false = Ret c (c_r c) -> c = a_xagain.
Proof.
  intros Q1 Q2 Q3. assert (Ej : x = xml_of (c_r a_crf)) by (unfold xml_of; rewrite Q1; reflexivity).
  assert (Es : s = state_of (import_xml read6 at_front no_file "" env_id true 40 (again at_front x) (r_empty gH 6))) by (rewrite Q2; reflexivity).
  rewrite Ej in Es. rewrite Es in Q3. exact (crf_made _ _ _ Q3).
Qed.
Example C53_conditional_gradient_example : exists x s c' g t t', export_xml print6 env_id true (c_r a_crf) = Ok x /\
  import_xml read6 at_front no_file "" env_id true 40 (again at_front x) (r_empty gH 6) = Ret tt s /\ crf_ctor env_id s false = Ret c' (c_r c') /\
  gradient (fun _ => env_id) a_set 3 a_crf = Ret g t /\ gradient (fun _ => env_id) (set_by_names (g_vars (graph_of a_crf)) (g_vars (graph_of c')) a_set) 1 c' = Ret g t'.
Proof.
  destruct (C53_conditional_gradient_partial QcNum_ok print6 read6 print6_plain read6_zero read6_nonneg at_front at_front_orderly no_file "" a_crf env_id env_id env_id gH 6 40 false a_new env_id_ok env_id_ok env_id_ok gH_built
    a_print a_lone a_listed a_clear a_seen a_unseen a_exact) as (x & Q1 & Q).
  destruct (Q (again at_front x) (again_reads at_front (proj1 at_front_orderly) x)) as (s & c' & Q2 & Q3 & X).
  destruct (X a_set a_samples (fun _ => env_id) (fun _ => env_id) 3 1 a_iter a_usable) as (g & t & t' & G1 & G2).
  - intros _. exact env_id_ok.
  - intros _. exact env_id_ok.
  - exact a_order.
  - rewrite (xread_made _ _ _ Q1 Q2 Q3). exact a_order_xread.
  - repeat constructor.
  - repeat constructor.
  - exact a_hidden.
  - exact a_given.
  - exists x, s, c', g, t, t'. split; [exact Q1|]. split; [exact Q2|]. split; [exact Q3|]. split; [exact G1|exact G2].
Qed.
Example C53_conditional_training_example : exists x s c' (ends : bool) ws' src' s', export_xml print6 env_id true (c_r a_crf) = Ok x /\
  import_xml read6 at_front no_file "" env_id true 40 (again at_front x) (r_empty gH 6) = Ret tt s /\ crf_ctor env_id s false = Ret c' (c_r c') /\
  train_crf qfloor t_rand (fun _ _ => env_id) (c_pos a_crf) (descent (q 1 2) 1) a_combs (mkTrainInfo 2 n1) (c_r a_crf) = (if ends then Ret tt src' else Thr src') /\
  train_crf qfloor t_rand (fun _ _ => env_id) (c_pos c') (descent (q 1 2) 1) (map (by_names (g_vars (graph_of a_crf)) (g_vars (graph_of c'))) a_combs) (mkTrainInfo 2 n1) (c_r c') = (if ends then Ret tt s' else Thr s') /\
  get_weights src' = Ok ws' /\ get_weights s' = Ok ws'.
Proof.
  destruct (P_Train.get_weights_ok (c_r a_crf) (ch_r _ _ (cc_coh a_crf a_new))) as (ws & GW & _).
  destruct (C53_conditional_training_partial QcNum_ok print6 read6 print6_plain read6_zero read6_nonneg at_front at_front_orderly no_file "" a_crf env_id env_id env_id gH 6 40 false ws (descent (q 1 2) 1) qfloor t_rand a_combs (mkTrainInfo 2 n1)
    a_new env_id_ok env_id_ok env_id_ok gH_built a_print a_lone a_listed a_clear a_seen a_unseen a_exact a_exposed a_train GW) as (x & Q1 & Q).
  - repeat constructor.
  - exact a_usable_all.
  - left. reflexivity.
  - destruct (Q (again at_front x) (again_reads at_front (proj1 at_front_orderly) x)) as (s & c' & Q2 & Q3 & X).
    destruct (X (fun _ _ => env_id) (fun _ _ => env_id)) as (b & ws' & src' & s' & E1 & E2 & W1 & W2).
    + intros _ _. exact env_id_ok.
    + intros _ _. exact env_id_ok.
    + intros _. exact a_order.
    + intros _. rewrite (xread_made _ _ _ Q1 Q2 Q3). exact a_order_xread.
    + exists x, s, c', b, ws', src', s'. split; [exact Q1|]. split; [exact Q2|]. split; [exact Q3|]. split; [exact E1|]. split; [exact E2|]. split; [exact W1|exact W2].
Qed.

Print Assumptions C45_conditional_gradient_partial.
Print Assumptions C45_conditional_training_partial.
Print Assumptions C53_conditional_gradient_partial.
Print Assumptions C53_conditional_training_partial.
