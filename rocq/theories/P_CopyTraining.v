(** Property C46 for the training: the weights a copy gets from a training are the ones
    the source gets from it. *)
From Coq Require Import String List Arith Bool Lia Permutation Relations QArith Qcanon Field.
From Verif Require Import Res Num Categoric Combs Func FuncProofs GroupProofs FactorProofs FactorApi Special SpecialProofs
  Graph GraphLemmas Clusters Belief Query GraphInv EvidInv BeliefInv BigOp GraphSpec Hist P_Graph BeliefSpec JointSpec Sums BeliefHist
  Rebuild Train TrainHist Coherent TrainInv P_Categoric P_Factor Demo BeliefDemo TrainDemo P_Train P_Gradient P_GradientDemo P_Joint Separate FieldHist P_Field Plan CopyProofs P_Copy
  IO TextSpec TextProofs Json JsonRead JsonProofs P_Json Xml XmlProofs P_Xml P_FilesAnswers TrainSpec Gradient GradientRun P_CopyAnswers P_CopyGradient
  RealNum Gibbs Tree Cycle BPStep BPRun Exact Queries Parts Joint GibbsProofs Likelihood CRF CRFHist CRFInv CRFSpec CRFGradient Trainer TrainerSpec TrainerProofs P_CRFDemo P_Trainer P_TrainerDemo.
Import ListNotations.
Open Scope nat_scope.

Lemma F2_concat {A B} (P R : A -> B -> Prop) cs cs' : Forall2 (Forall2 P) cs cs' ->
  (forall i c c' a b, nth_error cs i = Some c -> nth_error cs' i = Some c' -> In a c -> In b c' -> P a b -> R a b) -> Forall2 R (concat cs) (concat cs').
Proof.
  induction 1 as [|c c' cs cs' T TC IH]; intros X; cbn [concat]; [constructor|]. apply Forall2_app.
  - eapply F2_mono; [|exact T]. intros a b Ja Jb. apply (X 0 c c' a b); auto.
  - apply IH. intros i d d' a b. apply (X (S i)).
Qed.

Section P.
  Context {N : num} (OK : num_ok N).
  Add Field CTField : (ok_field N OK).

  (** {1 The weights of the assignments, whatever the weights of the factors} *)
  Section Split.
    Variables (F : nat -> func N) (A : spec) (cs : list (list nat)) (ws : list N).
    Hypothesis NA : NoDup (sp_facs A).
    Hypothesis NC : NoDup (concat cs).
    Hypothesis CA : incl (concat cs) (sp_facs A).
    Definition rest : list nat := filter (fun f => negb (existsb (Nat.eqb f) (concat cs))) (sp_facs A).
    Definition part_of (G : nat -> func N) (l : list nat) (x : asg) : N := prodL (fun f => fval (G f) (map (val x) (f_vars (G f)))) l.

    Lemma in_list f (l : list nat) : existsb (Nat.eqb f) l = true <-> In f l.
    Proof. rewrite existsb_exists. split. intros (k & J & Q). apply Nat.eqb_eq in Q. subst. exact J. intros J. exists f. split; auto. apply Nat.eqb_refl. Qed.
    Lemma rest_out f : In f rest -> ~ In f (concat cs).
    Proof. intros J K. apply filter_In in J as [_ Q]. apply in_list in K. rewrite K in Q. discriminate Q. Qed.
    Lemma rest_perm : Permutation (sp_facs A) (rest ++ concat cs).
    Proof.
      apply NoDup_Permutation; auto.
      - apply NoDup_app_intro; auto. { apply NoDup_filter; auto. } intros f J. apply (rest_out f J).
      - intros f. rewrite in_app_iff. split.
        + intros J. destruct (in_dec Nat.eq_dec f (concat cs)) as [K|K]; auto. left. apply filter_In. split; auto.
          destruct (existsb (Nat.eqb f) (concat cs)) eqn:Q; auto. apply in_list in Q. contradiction.
        + intros [J|J]. apply filter_In in J. apply J. apply CA; auto.
    Qed.
    Lemma weight_split x : weight F A x = (part_of F rest x * part_of F (concat cs) x)%num.
    Proof. unfold weight, part_of. rewrite (prodL_perm OK _ _ _ rest_perm), (prodL_app OK). reflexivity. Qed.
    Lemma weight_split_at x : weight (with_weights F cs ws) A x = (part_of F rest x * part_of (with_weights F cs ws) (concat cs) x)%num.
    Proof.
      unfold weight. rewrite (prodL_perm OK _ _ _ rest_perm), (prodL_app OK). unfold part_of. f_equal.
      apply prodL_ext. intros f J. rewrite (with_weights_out F cs ws f (rest_out f J)). reflexivity.
    Qed.
  End Split.

  Lemma ww_group (F : nat -> func N) cs : forall ws f, f_group (with_weights F cs ws f) = f_group (F f).
  Proof. induction cs as [|c cs IH]; intros [|w ws] f; cbn [with_weights]; auto. destruct (existsb _ c); auto. Qed.
  Lemma ww_img (F : nat -> func N) cs : forall ws f c, fimg (with_weights F cs ws f) c = fimg (F f) c.
  Proof. induction cs as [|d cs IH]; intros [|w ws] f c; cbn [with_weights]; auto. destruct (existsb _ d); auto. Qed.
  Lemma ww_vars (F : nat -> func N) cs ws f : f_vars (with_weights F cs ws f) = f_vars (F f).
  Proof. unfold f_vars. rewrite ww_group. reflexivity. Qed.

  Section Same.
    Variables (F F' : nat -> func N) (A A' : spec) (l : list nat) (cs cs' : list (list nat)) (ws : list N).
    Hypothesis GF : goods F.
    Hypothesis ND : NoDup (sp_vars A).
    Hypothesis FV : forall f, In f (sp_facs A) -> incl (f_vars (F f)) (sp_vars A).
    Hypothesis PV : Permutation (sp_vars A) (sp_vars A').
    Hypothesis EV : forall v, In v (sp_vars A) -> sp_evidence A' v = sp_evidence A v.
    Hypothesis PL : Permutation (sp_facs A) l.
    Hypothesis TW : Forall2 (stands_for F F') l (sp_facs A').
    Hypothesis TC : Forall2 (Forall2 (tuned_as F F')) cs cs'.
    Hypothesis NA : NoDup (sp_facs A).
    Hypothesis NA' : NoDup (sp_facs A').
    Hypothesis NC : NoDup (concat cs).
    Hypothesis NC' : NoDup (concat cs').
    Hypothesis CA : incl (concat cs) (sp_facs A).
    Hypothesis CA' : incl (concat cs') (sp_facs A').
    Hypothesis EX : forall f, In f (concat cs) -> f_exp (F f) <> None.
    Hypothesis LW : length ws = length cs.

    Notation FW := (with_weights F cs ws).
    Notation FW' := (with_weights F' cs' ws).
    Definition retuned (f k : nat) : Prop := f_vars (F' k) = f_vars (F f) /\
      (forall c, valid_comb (fsizes (F f)) c -> fval (F' k) c = fval (F f) c) /\
      (forall c, valid_comb (fsizes (F f)) c -> fval (FW' k) c = fval (FW f) c).
    Lemma clusters_retuned : Forall2 retuned (concat cs) (concat cs').
    Proof.
      apply (F2_concat (tuned_as F F') retuned cs cs' TC). intros i c c' f k Qc Qc' Jf Jk ((E & V) & _ & I).
      assert (X : exists w, nth_error ws i = Some w).
      { destruct (nth_error ws i) as [w|] eqn:Q; eauto. apply nth_error_None in Q. assert (nth_error cs i <> None) by congruence.
        apply nth_error_Some in H. lia. }
      destruct X as [w Qw]. split; [exact E|]. split; [exact V|]. intros d Vd.
      rewrite (with_weights_in F cs NC ws i c w f Qc Qw Jf), (with_weights_in F' cs' NC' ws i c' w k Qc' Qw Jk).
      unfold fval, transform, with_weight. cbn [f_exp]. f_equal. f_equal. exact (I d Vd).
    Qed.
    Lemma cluster_part x : (forall v, In v (sp_vars A) -> val x v < vsize v) ->
      part_of F' (concat cs') x = part_of F (concat cs) x /\ part_of FW' (concat cs') x = part_of FW (concat cs) x.
    Proof.
      intros R. assert (X : forall a b, Forall2 retuned a b -> incl a (sp_facs A) -> part_of F' b x = part_of F a x /\ part_of FW' b x = part_of FW a x);
        [|exact (X _ _ clusters_retuned CA)].
      induction 1 as [|f k a b (E & V & VW) T IH]; intros I. split; reflexivity.
      destruct IH as [IH1 IH2]. { intros g J. apply I. right. exact J. }
      assert (VC : valid_comb (fsizes (F f)) (map (val x) (f_vars (F f)))) by (apply (P_Copy.in_range F A FV f x R), I; left; reflexivity).
      unfold part_of in *. unfold prodL in *. cbn [fold_right]. rewrite IH1, IH2. rewrite !ww_vars, E. rewrite (V _ VC), (VW _ VC). split; reflexivity.
    Qed.
    Lemma cluster_pos x : part_of F (concat cs) x <> n0.
    Proof.
      intros Q. assert (P : (n0 < part_of F (concat cs) x)%num).
      { apply (prodL_pos OK). intros f J. unfold fval, transform. pose proof (EX f J) as X. destruct (f_exp (F f)) as [w|]; [|congruence]. apply ok_exp; auto. }
      rewrite Q, (ok_irr N OK) in P. discriminate P.
    Qed.
    Lemma retuned_weight x : (forall v, In v (sp_vars A) -> val x v < vsize v) -> weight FW' A' x = weight FW A x.
    Proof.
      intros R. destruct (cluster_part x R) as [Q1 Q2]. pose proof (twins_weight OK F F' A A' l FV PL TW x R) as Q.
      rewrite (weight_split F A cs NA NC CA), (weight_split F' A' cs' NA' NC' CA'), Q1 in Q.
      rewrite (weight_split_at F A cs ws NA NC CA), (weight_split_at F' A' cs' ws NA' NC' CA'), Q2. f_equal.
      pose proof (cluster_pos x) as P. 
      transitivity ((part_of F' (rest A' cs') x * part_of F (concat cs) x) / part_of F (concat cs) x)%num. { field. exact P. }
      rewrite Q. field. exact P.
    Qed.
    Lemma FVW : forall f, In f (sp_facs A) -> incl (f_vars (FW f)) (sp_vars A).
    Proof. intros f J. rewrite ww_vars. apply FV; auto. Qed.
    Lemma retuned_range x : In x (all_asg (sp_vars A')) -> forall v, In v (sp_vars A) -> val x v < vsize v.
    Proof. intros J v Jv. apply (asg_val_range (sp_vars A')); auto. eapply Permutation_NoDup; eauto. eapply Permutation_in; eauto. Qed.
    Lemma FW_nn x : (forall v, In v (sp_vars A) -> val x v < vsize v) -> (n0 <= weight FW A x)%num.
    Proof.
      intros R. apply (prodL_nonneg OK). intros f J. unfold fval, transform. destruct (f_exp (FW f)) as [w|]. apply (nlt_le OK), ok_exp; auto.
      rewrite ww_img, ww_vars. destruct (GF f) as (_ & _ & X). apply X. apply (P_Copy.in_range F A FV f x R J).
    Qed.
    Lemma retuned_expected c c' : (forall f, In f c -> In f (sp_facs A)) -> Forall2 (tuned_as F F') c c' ->
      expected (weight FW' A') A' (features F' c') = expected (weight FW A) A (features F c).
    Proof.
      intros C1 T1. unfold expected, mass. f_equal.
      - transitivity (bigL SUM (fun x => if agrees A x then (weight FW A x * features F c x)%num else n0) (all_asg (sp_vars A'))).
        + apply (sumL_ext (A:=asg)). intros x J. pose proof (retuned_range x J) as R.
          rewrite (twins_agrees A A' PV EV), (retuned_weight x R), (same_features F F' A FV c c' C1 T1 x x R) by auto. reflexivity.
        + symmetry. apply (all_asg_perm OK SUM _ _ PV ND).
          * intros x y Q. rewrite (agrees_val A x y Q), (weight_val FW A FVW x y Q), (features_val F A FV c C1 x y Q). reflexivity.
          * intros x R. destruct (agrees A x). apply (nmul_nonneg OK). apply FW_nn; auto. apply (features_nn OK F A GF FV c C1); auto. apply (nle_refl OK).
      - transitivity (bigL SUM (fun x => if agrees A x && true then weight FW A x else n0) (all_asg (sp_vars A'))).
        + apply (sumL_ext (A:=asg)). intros x J. pose proof (retuned_range x J) as R. rewrite (twins_agrees A A' PV EV), (retuned_weight x R). reflexivity.
        + symmetry. apply (all_asg_perm OK SUM _ _ PV ND).
          * intros x y Q. rewrite (agrees_val A x y Q), (weight_val FW A FVW x y Q). reflexivity.
          * intros x R. destruct (_ && _). apply FW_nn; auto. apply (nle_refl OK).
    Qed.
    Lemma retuned_gradient samples : (forall k, In k samples -> valid_comb (map vsize (sp_vars A)) k) ->
      log_gradient F' A' cs' (map (reorder (sp_vars A) (sp_vars A')) samples) ws = log_gradient F A cs samples ws.
    Proof.
      intros V. unfold log_gradient.
      assert (X : forall a b, Forall2 (Forall2 (tuned_as F F')) a b -> incl a cs ->
        map (fun c => (mean (sp_vars A') (map (reorder (sp_vars A) (sp_vars A')) samples) (features F' c) - expected (weight FW' A') A' (features F' c))%num) b =
        map (fun c => (mean (sp_vars A) samples (features F c) - expected (weight FW A) A (features F c))%num) a); [|exact (X cs cs' TC (incl_refl _))].
      induction 1 as [|c c' a b T T' IH]; intros I; cbn [map]; [reflexivity|].
      assert (C1 : forall f, In f c -> In f (sp_facs A)). { intros f J. apply CA. apply in_concat. exists c. split; auto. apply I. left. reflexivity. }
      rewrite IH by (intros d J; apply I; right; exact J). f_equal. f_equal.
      - apply (same_mean F F' A A' ND FV PV c c' C1 T samples V).
      - apply (retuned_expected c c' C1 T).
    Qed.
    Lemma retuned_positive : positive (weight FW A) A -> positive (weight FW' A') A'.
    Proof.
      intros (x & (I & Ag) & Pw).
      assert (VX : forall v, In v (sp_vars A) -> val (canon (sp_vars A') x) v = val x v) by (intros v Iv; apply canon_val; eapply Permutation_in; eauto).
      assert (RX : forall v, In v (sp_vars A) -> val x v < vsize v) by (intros; eapply asg_val_range; eauto).
      exists (canon (sp_vars A') x). split; [split|].
      - apply canon_In. intros v Iv. apply RX. eapply Permutation_in; [symmetry; exact PV|exact Iv].
      - rewrite (twins_agrees A A' PV EV), (agrees_val A _ x); auto.
      - rewrite retuned_weight. rewrite (weight_val FW A FVW _ x); auto. intros v Jv. rewrite VX; auto.
    Qed.
    Lemma retuned_symmetric : symmetric F A -> symmetric FW A -> symmetric FW' A'.
    Proof.
      intros S0 SY k v w [Jk X] Hv Hw. unfold fv in X. rewrite ww_vars in X.
      apply (twins_hidden A A' PV EV) in Hv. apply (twins_hidden A A' PV EV) in Hw.
      assert (VC : forall f, f_vars (F f) = [v; w] \/ f_vars (F f) = [w; v] -> vsize v = vsize w -> forall a b, a < vsize v -> b < vsize v -> valid_comb (fsizes (F f)) [a; b]).
      { intros f Y Z a b La Lb. unfold fsizes, sizes_of. change (g_soup (f_group (F f))) with (f_vars (F f)). destruct Y as [->| ->]; cbn [map]; repeat constructor; lia. }
      destruct (in_dec Nat.eq_dec k (concat cs')) as [K|K].
      - apply (F2_in_r _ _ _ clusters_retuned) in K as (f & Jf & (E & _ & V)). rewrite E in X.
        destruct (SY f v w) as [Es Y]; auto. { split. apply CA; auto. unfold fv. rewrite ww_vars. exact X. }
        split; auto. intros i j Li Lj. rewrite !V by (apply VC; auto). auto.
      - rewrite (with_weights_out F' cs' ws k K). apply (F2_in_r _ _ _ TW) in Jk as (f & Jf & [E V]). rewrite E in X.
        destruct (S0 f v w) as [Es Y]; auto. { split. eapply Permutation_in; [symmetry; exact PL|exact Jf]. exact X. }
        split; auto. intros i j Li Lj. rewrite !V by (apply VC; auto). auto.
    Qed.
  End Same.

  (** {1 The trainings} *)
  Lemma ideal_same dim (g g' : nat -> list N -> list N) : (forall k ws, length ws = dim -> g k ws = g' k ws) ->
    forall t k ws, length ws = dim -> ideal_training dim g t k ws = ideal_training dim g' t k ws.
  Proof.
    intros Q t. induction t as [| |next IH|ws' t IH|next IH]; intros k ws L; cbn [ideal_training]; auto.
    - destruct (length ws' =? dim) eqn:E; auto. apply IH. apply Nat.eqb_eq; auto.
    - rewrite (Q k ws L). apply IH; auto.
  Qed.
  Lemma drawn_map (f : list nat -> list nat) floorf rand combs (p : N) k : combs <> [] ->
    drawn floorf rand (map f combs) p k = map f (drawn floorf rand combs p k).
  Proof.
    intros NE. unfold drawn. destruct (neqb n1 p); auto. rewrite map_length, map_map. apply map_ext. intros j.
    assert (L : rand k j mod length combs < length combs). { apply Nat.mod_upper_bound. destruct combs; [contradiction|discriminate]. }
    rewrite (nth_indep _ [] (f [])) by (rewrite map_length; exact L). apply map_nth.
  Qed.
  Lemma drawn_in floorf rand combs (p : N) k c : combs <> [] -> In c (drawn floorf rand combs p k) -> In c combs.
  Proof.
    intros NE. unfold drawn. destruct (neqb n1 p); auto. intros J. apply in_map_iff in J as (j & <- & _). apply nth_In.
    apply Nat.mod_upper_bound. destruct combs; [contradiction|discriminate].
  Qed.
  Lemma weights_length (s : rst (N:=N)) ws : get_weights s = Ok ws -> length ws = length (tunable_clusters s).
  Proof.
    unfold get_weights, tunable_clusters. rewrite map_length. revert ws. induction (r_tuners s) as [|a l IH]; intros ws Q; cbn [rmap] in Q.
    - injection Q as <-. reflexivity.
    - destruct (tuner_weight (r_h s) a); try discriminate Q. cbn [rbind] in Q. destruct (rmap _ l) as [y| | | |]; try discriminate Q. cbn [rbind] in Q.
      injection Q as <-. cbn [length]. rewrite (IH y eq_refl). reflexivity.
  Qed.
  Lemma known_observed (A : spec) v : In v (sp_vars A) -> sp_observed A v = match sp_evidence A v with Some _ => true | None => false end.
  Proof.
    intros J. unfold sp_observed, sp_known, sp_evidence. replace (existsb (same_key v) (sp_vars A)) with true; auto. symmetry. apply existsb_exists. exists v. split; auto.
    apply same_key_spec. reflexivity.
  Qed.

  (** Any trainer, from the copy of a tree model whose tunable factors join pairs of
      variables without evidence: with the columns of the training set reordered, it
      ends as on the source, and with the same weights. The order of the visits of the
      containers may be different in the two trainings. Missing: as in C52. *)
  Theorem C46_training_partial : forall h top src e copy ws (t : trainer (N:=N)) floorf rand combs info,
    (forall f, built (h f)) -> rreach h top alert src -> env_ok e ->
    no_lone_variable src -> all_listed src -> clear_sharing src ->
    tunables_hidden src -> trainable src -> get_weights src = Ok ws ->
    1 <= info_threads info -> usable_set src combs -> enough floorf (info_percentage info) (length combs) ->
    exists s, rf_absorb e src copy (r_empty (r_h src) (r_top src)) = Ret tt s /\
      forall es es', (forall k, env_ok (es k)) -> (forall k, env_ok (es' k)) ->
        exists (ends : bool) ws' src' s',
          train_field floorf rand es t combs info src = (if ends then Ret tt src' else Thr src') /\
          train_field floorf rand es' t (map (reorder (g_vars (r_g src)) (g_vars (r_g s))) combs) info s = (if ends then Ret tt s' else Thr s') /\
          get_weights src' = Ok ws' /\ get_weights s' = Ok ws'.
  Proof.
    intros h top src e copy ws t floorf rand combs info Hb RA E NL AL CL TH [TW0 TR] GW L US EN. pose proof (alert_careful _ _ _ RA) as R.
    pose proof (proj1 (rreach_current OK _ _ src Hb RA)) as FT. pose proof (rreach_coh False _ _ _ Hb R) as CS.
    destruct (C46_field_partial h top src e copy Hb R E NL AL CL) as (s & Q & SC & TC & GW' & _ & _ & _ & RS). rewrite GW in GW'.
    pose proof (ri_built _ (ch_r _ _ CS)) as HB. pose proof (proj1 (rreach_current OK _ _ s HB RS)) as FT'.
    pose proof (rreach_coh False _ _ _ HB (alert_careful _ _ _ RS)) as C.
    assert (FS : TrainInv.full False src) by (constructor; [exact CS|apply FT|apply FT]).
    assert (FS' : TrainInv.full False s) by (constructor; [exact C|apply FT'|apply FT']).
    destruct (content_parts OK _ _ _ _ CS C SC) as (G & ND & FV & PV & EV0 & l & PL & TW). change (sp_vars (contents src)) with (g_vars (r_g src)) in *.
    assert (EV : forall v, In v (sp_vars (bare src)) -> sp_evidence (bare s) v = sp_evidence (bare src) v) by reflexivity.
    pose proof (ch_r _ _ CS) as I. pose proof (ch_r _ _ C) as I'.
    assert (CA : incl (concat (tunable_clusters src)) (g_all (r_g src))). { intros f J. apply (ri_in _ I). apply in_or_app. right. apply (ri_tun _ I). exact J. }
    assert (CA' : incl (concat (tunable_clusters s)) (g_all (r_g s))). { intros f J. apply (ri_in _ I'). apply in_or_app. right. apply (ri_tun _ I'). exact J. }
    assert (LC : length (tunable_clusters s) = length (tunable_clusters src)) by (clear -TC; induction TC; cbn [length]; congruence).
    assert (S0 : symmetric (r_h src) (bare src)).
    { pose proof (ww_same src ws I GW) as W. intros f v w J Hv Hw. destruct (proj1 (TW0 ws (weights_length src ws GW))) with (f:=f) (v:=v) (w:=w) as [Es Y]; auto.
      - destruct J as [J X]. split; auto. unfold fv in *. rewrite ww_vars. exact X.
      - split; auto. intros i j Li Lj. rewrite (W f). auto. }
    assert (TH' : tunables_hidden s).
    { intros c k Jc Jk. apply (F2_in_r _ _ _ TC) in Jc as (d & Jd & T). apply (F2_in_r _ _ _ T) in Jk as (f & Jf & ((Ef & _) & _)).
      destruct (TH d f Jd Jf) as [L2 U]. rewrite Ef. split; auto. intros v Jv. specialize (U v Jv). unfold unobserved in *.
      assert (Jg : In v (g_vars (r_g src))). { apply (FV f); auto. apply CA. apply in_concat. exists d. auto. }
      rewrite known_observed in U by exact Jg. rewrite known_observed by (eapply Permutation_in; [exact PV|exact Jg]).
      change (spec_of (r_g s)) with (contents s). rewrite (EV0 v Jg). exact U. }
    assert (TW1 : forall ws, length ws = length (tunable_clusters s) -> symmetric (with_weights (r_h s) (tunable_clusters s) ws) (bare s) /\
      positive (weight (with_weights (r_h s) (tunable_clusters s) ws) (bare s)) (bare s)).
    { intros us Lu. rewrite LC in Lu. destruct (TW0 us Lu) as [A1 A2]. split.
      - apply (retuned_symmetric (r_h src) (r_h s) (bare src) (bare s) l (tunable_clusters src) (tunable_clusters s) us); auto; first [apply I|apply I'].
      - apply (retuned_positive (r_h src) (r_h s) (bare src) (bare s) l (tunable_clusters src) (tunable_clusters s) us); auto; first [apply I|apply I']. }
    assert (TR' : forall v, In v (g_vars (r_g s)) -> tree_around (r_h s) (bare s) v).
    { intros v J. apply (twins_tree (r_h src) (r_h s) (bare src) (bare s) l PV EV PL TW v). apply TR. eapply Permutation_in; [symmetry; exact PV|exact J]. }
    destruct US as [NE V]. set (f := reorder (g_vars (r_g src)) (g_vars (r_g s))).
    assert (NE' : map f combs <> []) by (intros Z; apply map_eq_nil in Z; auto).
    assert (V' : forall c, In c (map f combs) -> valid_comb (map vsize (g_vars (r_g s))) c).
    { intros k J. apply in_map_iff in J as (k0 & <- & J). apply reorder_valid; auto. intros v Jv. eapply Permutation_in; [symmetry; exact PV|exact Jv]. }
    assert (EN' : enough floorf (info_percentage info) (length (map f combs))) by (rewrite map_length; exact EN).
    exists s. split; [exact Q|]. intros es es' E1 E2.
    destruct (train_field_ok OK src es floorf rand t combs info ws FS TH E1 GW L TW0 TR V (iterators OK floorf rand combs info NE EN) NE) as (src' & Q1 & T1 & _).
    destruct (train_field_ok OK s es' floorf rand t (map f combs) info ws FS' TH' E2 GW' L TW1 TR' V' (iterators OK floorf rand (map f combs) info NE' EN') NE') as (s' & Q2 & T2 & _).
    assert (Z : ideal_training (length (tunable_clusters s)) (fun k => log_gradient (r_h s) (bare s) (tunable_clusters s) (drawn floorf rand (map f combs) (info_percentage info) k)) t 0 ws =
      ideal_training (length (tunable_clusters src)) (fun k => log_gradient (r_h src) (bare src) (tunable_clusters src) (drawn floorf rand combs (info_percentage info) k)) t 0 ws).
    { rewrite LC. apply ideal_same; [|apply (weights_length src ws GW)]. intros k us Lu. rewrite drawn_map by exact NE.
      apply (retuned_gradient (r_h src) (r_h s) (bare src) (bare s) l (tunable_clusters src) (tunable_clusters s) us); auto; try first [apply I|apply I'].
      intros c J. apply V. eapply drawn_in; eauto. }
    rewrite Z in Q2, T2. eexists. eexists. exists src', s'. split; [exact Q1|]. split; [exact Q2|].
    split; [apply (ts_get _ _ _ T1)|apply (ts_get _ _ _ T2)].
  Qed.
End P.
Print Assumptions C46_training_partial.

(** The model of the example of C52: the variables of the source are A, C, D, E, B and
    those of the copy A, B, C, D, E. Two steps of a descent change the weights. *)
Example C46_training_example : exists s ws' src' s',
  rf_absorb env_rev t_state true (r_empty (r_h t_state) (r_top t_state)) = Ret tt s /\
  map vname (g_vars (r_g t_state)) = ["A"; "C"; "D"; "E"; "B"]%string /\ map vname (g_vars (r_g s)) <> ["A"; "C"; "D"; "E"; "B"]%string /\
  train_field qfloor t_rand (fun _ => env_rev) (descent (q 1 2) 2) t_combs t_info t_state = Ret tt src' /\
  train_field qfloor t_rand (fun _ => env_id) (descent (q 1 2) 2) (map (reorder (g_vars (r_g t_state)) (g_vars (r_g s))) t_combs) t_info s = Ret tt s' /\
  get_weights src' = Ok ws' /\ get_weights s' = Ok ws'.
Proof.
  assert (RA : rreach tH 6 alert t_state). { apply rruns_alert. constructor. vm_compute. reflexivity. }
  assert (GW : get_weights t_state = Ok [q 1 2; q 1 1]) by (vm_compute; reflexivity).
  destruct (C46_training_partial QcNum_ok tH 6 t_state env_rev true [q 1 2; q 1 1] (descent (q 1 2) 2) qfloor t_rand t_combs t_info tH_built RA env_rev_ok) as (s & Q & X).
  - apply no_lone_variableb_ok. vm_compute. reflexivity.
  - apply all_listedb_ok. vm_compute. reflexivity.
  - apply (clearb_ok QcNum_ok). exact (ri_built _ (rreach_inv _ _ _ _ tH_built RA)). vm_compute. reflexivity.
  - apply tunables_hiddenb_ok. vm_compute. reflexivity.
  - apply (trainableb_ok QcNum_ok False). exact t_coh. vm_compute. reflexivity.
  - exact GW.
  - apply Nat.leb_le. reflexivity.
  - apply usable_setb_ok. vm_compute. reflexivity.
  - exact t_enough.
  - destruct (X (fun _ => env_rev) (fun _ => env_id)) as (b & ws' & src' & s' & E1 & E2 & W1 & W2). { intros _. apply env_rev_ok. } { intros _. apply env_id_ok. }
    assert (Es : s = state_of (rf_absorb env_rev t_state true (r_empty (r_h t_state) (r_top t_state)))) by (rewrite Q; reflexivity).
    destruct C52_example as (s0 & E0 & _). destruct b; [|rewrite E0 in E1; discriminate E1].
    exists s, ws', src', s'. split; [exact Q|]. split; [vm_compute; reflexivity|].
    split. { rewrite Es. intros Z. vm_compute in Z. discriminate Z. }
    split; [exact E1|]. split; [exact E2|]. split; [exact W1|exact W2].
Qed.
