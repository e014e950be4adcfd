(** Property C46 for the training: the gradient a copy computes with a training set is
    the one the source computes, when the values of every combination are listed in the
    order of the variables of the copy. ([C46_training_set_refuted] shows that the
    reordering is needed.) *)
From Coq Require Import String List Arith Bool Lia Permutation Relations Qcanon.
From Verif Require Import Res Num Categoric Combs Func FuncProofs GroupProofs FactorProofs FactorApi Special SpecialProofs
  Graph GraphLemmas Clusters Belief Query GraphInv EvidInv BeliefInv BigOp GraphSpec Hist P_Graph BeliefSpec JointSpec Sums BeliefHist
  Rebuild Train TrainHist Coherent TrainInv P_Categoric P_Factor Demo BeliefDemo TrainDemo P_Train P_Gradient P_GradientDemo P_Joint Separate FieldHist P_Field Plan CopyProofs P_Copy
  IO TextSpec TextProofs Json JsonRead JsonProofs P_Json Xml XmlProofs P_Xml P_FilesAnswers TrainSpec Gradient GradientRun P_CopyAnswers.
Import ListNotations.
Open Scope nat_scope.

(** the values of a combination, listed for the variables [vs'] instead of [vs] *)
Definition reorder (vs vs' : list var) (c : list nat) : list nat := map (val (combine vs c)) vs'.
(** a training set with its combinations reordered (TrainSet.h:22-42) *)
Definition reordered (vs vs' : list var) (it : titer) : titer := mkTI (map (reorder vs vs') (ti_combs it)) (ti_subset it).

Lemma reordered_samples vs vs' it samples : iter_samples it = Ok samples -> iter_samples (reordered vs vs' it) = Ok (map (reorder vs vs') samples).
Proof.
  unfold iter_samples, reordered. cbn [ti_combs ti_subset]. destruct (ti_subset it) as [l|].
  - revert samples. induction l as [|k l IH]; intros samples Q; cbn [rmap] in *.
    + injection Q as <-. reflexivity.
    + unfold vget in *. rewrite nth_error_map. destruct (nth_error (ti_combs it) k) as [c|]; [|discriminate Q]. cbn [option_map rbind] in *.
      destruct (rmap _ l) as [cs| | | |]; try discriminate Q. cbn [rbind] in Q. injection Q as <-. rewrite (IH cs eq_refl). reflexivity.
  - intros Q. injection Q as <-. reflexivity.
Qed.
Lemma reorder_val vs vs' c v : NoDup vs' -> In v vs' -> val (combine vs' (reorder vs vs' c)) v = val (combine vs c) v.
Proof.
  intros ND J. apply In_nth_error in J as [i Q]. apply (val_combine vs' ND _ i v); auto. unfold reorder. rewrite nth_error_map, Q. reflexivity.
Qed.
Lemma comb_range vs c : NoDup vs -> valid_comb (map vsize vs) c -> forall v, In v vs -> val (combine vs c) v < vsize v.
Proof.
  intros ND V v J. apply In_nth_error in J as [i Q]. destruct (valid_at vs c i v V Q) as (x & Qx & L). rewrite (val_combine vs ND c i v x Q Qx). exact L.
Qed.
Lemma reorder_valid vs vs' c : NoDup vs -> incl vs' vs -> valid_comb (map vsize vs) c -> valid_comb (map vsize vs') (reorder vs vs' c).
Proof.
  intros ND I V. unfold reorder. pose proof (comb_range vs c ND V) as R. induction vs' as [|v vs' IH]; cbn [map]; constructor.
  - apply R, I. left. reflexivity.
  - apply IH. intros w J. apply I. right. exact J.
Qed.

Section P.
  Context {N : num} (OK : num_ok N).

  Lemma sumL_map {A B} (f : B -> N) (g : A -> B) l : sumL f (map g l) = sumL (fun x => f (g x)) l.
  Proof. induction l as [|a l IH]; cbn; [reflexivity|]. unfold sumL in IH. rewrite IH. reflexivity. Qed.

  Section Same.
    Variables (F F' : nat -> func N) (A A' : spec) (l : list nat).
    Hypothesis GF : goods F.
    Hypothesis ND : NoDup (sp_vars A).
    Hypothesis FV : forall f, In f (sp_facs A) -> incl (f_vars (F f)) (sp_vars A).
    Hypothesis PV : Permutation (sp_vars A) (sp_vars A').
    Hypothesis EV : forall v, In v (sp_vars A) -> sp_evidence A' v = sp_evidence A v.
    Hypothesis PL : Permutation (sp_facs A) l.
    Hypothesis TW : Forall2 (stands_for F F') l (sp_facs A').
    Variables (c c' : list nat).
    Hypothesis CA : forall f, In f c -> In f (sp_facs A).
    Hypothesis TA : Forall2 (tuned_as F F') c c'.

    Lemma same_features x y : (forall v, In v (sp_vars A) -> val x v < vsize v) -> (forall v, In v (sp_vars A) -> val y v = val x v) ->
      features F' c' y = features F c x.
    Proof.
      intros R Q. unfold features.
      assert (X : forall b b', Forall2 (tuned_as F F') b b' -> (forall f, In f b -> In f (sp_facs A)) -> sumL (fun f => feature F' f y) b' = sumL (fun f => feature F f x) b);
        [|exact (X c c' TA CA)].
      intros b b' T. induction T as [|f k fs ks [[E _] [_ V]] T IH]; intros CA'; [reflexivity|]. rewrite !sumL_cons.
      rewrite IH by (intros g J; apply CA'; right; exact J). f_equal.
      pose proof (CA' f (or_introl eq_refl)) as Jf. unfold feature. rewrite E.
      replace (map (val y) (f_vars (F f))) with (map (val x) (f_vars (F f))).
      - apply V. apply (in_range F A FV f x R Jf).
      - apply map_ext_in. intros v J. symmetry. apply Q. apply (FV f Jf v J).
    Qed.
    Lemma features_val x y : (forall v, In v (sp_vars A) -> val x v = val y v) -> features F c x = features F c y.
    Proof.
      intros Q. unfold features. apply sumL_ext. intros f J. unfold feature. f_equal. apply map_ext_in. intros v Jv. apply Q. apply (FV f (CA f J) v Jv).
    Qed.
    Lemma features_nn x : (forall v, In v (sp_vars A) -> val x v < vsize v) -> (n0 <= features F c x)%num.
    Proof.
      intros R. apply (sumL_nonneg OK). intros f J. destruct (GF f) as (_ & _ & X). apply X. apply (in_range F A FV f x R (CA f J)).
    Qed.
    Lemma same_expected : expected (weight F' A') A' (features F' c') = expected (weight F A) A (features F c).
    Proof.
      unfold expected. f_equal.
      - transitivity (bigL SUM (fun x => if agrees A x then (weight F A x * features F c x)%num else n0) (all_asg (sp_vars A'))).
        + apply (sumL_ext (A:=asg)). intros x J.
          assert (R : forall v, In v (sp_vars A) -> val x v < vsize v).
          { intros v Jv. apply (asg_val_range (sp_vars A')); auto. eapply Permutation_NoDup; eauto. eapply Permutation_in; eauto. }
          rewrite (twins_agrees A A' PV EV), (twins_weight OK F F' A A' l FV PL TW x R), (same_features x x R) by auto. reflexivity.
        + symmetry. apply (all_asg_perm OK SUM _ _ PV ND).
          * intros x y Q. rewrite (agrees_val A x y Q), (weight_val F A FV x y Q), (features_val x y Q). reflexivity.
          * intros x R. destruct (agrees A x). apply (nmul_nonneg OK). apply (weight_nn OK F A GF FV x R). apply features_nn; auto. apply (nle_refl OK).
      - apply (twins_mass OK F F' A A' l GF ND FV PV EV PL TW). reflexivity.
    Qed.
    Lemma same_mean samples : (forall k, In k samples -> valid_comb (map vsize (sp_vars A)) k) ->
      mean (sp_vars A') (map (reorder (sp_vars A) (sp_vars A')) samples) (features F' c') = mean (sp_vars A) samples (features F c).
    Proof.
      intros V. unfold mean. rewrite map_length, sumL_map. f_equal. apply sumL_ext. intros k J. unfold assigned.
      apply same_features.
      - apply comb_range; auto.
      - intros v Jv. apply reorder_val. eapply Permutation_NoDup; eauto. eapply Permutation_in; eauto.
    Qed.
  End Same.

  Theorem C46_gradient_partial : forall h top (src : rst (N:=N)) e copy, (forall f, built (h f)) -> rreach h top alert src -> env_ok e ->
    no_lone_variable src -> all_listed src -> clear_sharing src ->
    symmetric_forest src -> positive (weight (r_h src) (bare src)) (bare src) ->
    exists s : rst (N:=N), rf_absorb e src copy (r_empty (r_h src) (r_top src)) = Ret tt s /\
      forall it samples e1 e2 n1 n2, iter_samples it = Ok samples -> usable_set src samples -> env_ok e1 -> env_ok e2 -> 1 <= n1 -> 1 <= n2 ->
        exists (g : list N) (t t' : rst (N:=N)), weights_gradient e1 it n1 src = Ret g t /\
          weights_gradient e2 (reordered (g_vars (r_g src)) (g_vars (r_g s)) it) n2 s = Ret g t'.
  Proof.
    intros h top src e copy Hb RA E NL AL CL [SY TR] PO. pose proof (alert_careful _ _ _ RA) as R.
    pose proof (proj1 (rreach_current OK _ _ src Hb RA)) as FS. pose proof (fl_coh _ _ FS) as CS.
    destruct (C46_field_partial h top src e copy Hb R E NL AL CL) as (s & Q & SC & TC & _ & _ & _ & _ & RS).
    pose proof (ri_built _ (ch_r _ _ CS)) as HB. pose proof (proj1 (rreach_current OK _ _ s HB RS)) as FS'. pose proof (fl_coh _ _ FS') as C.
    destruct (content_parts OK _ _ _ _ CS C SC) as (G & ND & FV & PV & _ & l & PL & TW). cbn [contents sp_vars sp_facs] in ND, FV, PV, PL, TW.
    assert (EV : forall v, In v (sp_vars (bare src)) -> sp_evidence (bare s) v = sp_evidence (bare src) v) by reflexivity.
    exists s. split; [exact Q|]. intros it samples e1 e2 n1 n2 IS US E1 E2 L1 L2.
    assert (SF' : symmetric_forest s).
    { split. apply (twins_symmetric (r_h src) (r_h s) (bare src) (bare s) l PV EV PL TW SY).
      intros v J. apply (twins_tree (r_h src) (r_h s) (bare src) (bare s) l PV EV PL TW v). apply TR. eapply Permutation_in; [symmetry; exact PV|exact J]. }
    assert (PO' : positive (weight (r_h s) (bare s)) (bare s)) by (apply (twins_positive OK (r_h src) (r_h s) (bare src) (bare s) l ND FV PV EV PL TW PO)).
    assert (US' : usable_set s (map (reorder (g_vars (r_g src)) (g_vars (r_g s))) samples)).
    { destruct US as [NE V]. split. { intros Z. apply map_eq_nil in Z. auto. } intros k J. apply in_map_iff in J as (k0 & <- & J).
      apply reorder_valid; auto. intros v Jv. eapply Permutation_in; [symmetry; exact PV|exact Jv]. }
    destruct (scoped_gradient OK src _ e1 it n1 samples FS E1 L1 (conj SY TR) PO IS US) as (t & Qt & _).
    destruct (scoped_gradient OK s _ e2 _ n2 _ FS' E2 L2 SF' PO' (reordered_samples _ _ _ _ IS) US') as (t' & Qt' & _).
    eexists. exists t, t'. split; [exact Qt|]. rewrite Qt'. f_equal.
    assert (CA : forall c, In c (tunable_clusters src) -> forall f, In f c -> In f (g_all (r_g src))).
    { intros c Jc f Jf. apply (ri_in _ (ch_r _ _ CS)). apply in_or_app. right. apply (ri_tun _ (ch_r _ _ CS)). apply in_concat. exists c. auto. }
    clear -OK TC CA G ND FV PV EV PL TW US. induction TC as [|c c' cs cs' T TC IH]; cbn [map]; [reflexivity|].
    rewrite IH by (intros c0 J0; apply CA; right; exact J0). pose proof (CA c (or_introl eq_refl)) as CA0. f_equal. f_equal.
    - apply (same_mean (r_h src) (r_h s) (bare src) (bare s) ND FV PV c c' CA0 T samples (proj2 US)).
    - apply (same_expected (r_h src) (r_h s) (bare src) (bare s) l G ND FV PV EV PL TW c c' CA0 T).
  Qed.
End P.

(** The model of [C46_training_set_refuted], whose variables are listed in another
    order by the copy. *)
Example C46_gradient_example : exists s g t t', rf_absorb env_id turned true (r_empty (r_h turned) (r_top turned)) = Ret tt s /\
  weights_gradient env_rev (mkTI [[0; 0; 1]; [1; 0; 1]] None) 2 turned = Ret g t /\
  weights_gradient env_id (mkTI [[1; 0; 0]; [1; 1; 0]] None) 1 s = Ret g t'.
Proof.
  assert (C : coh True turned) by exact (fl_coh _ _ (proj1 (rreach_current QcNum_ok _ _ turned gH_built turned_reach))).
  assert (SF : symmetric_forest turned). { apply (symmetric_forestb_ok QcNum_ok True). exact C. vm_compute. reflexivity. }
  assert (PO : positive (weight (r_h turned) (bare turned)) (bare turned)) by (apply positiveb_ok; vm_compute; reflexivity).
  destruct (C46_gradient_partial QcNum_ok gH 6 turned env_id true gH_built turned_reach env_id_ok turned_lone turned_listed turned_clear SF PO) as (s & Q & X).
  assert (US : usable_set turned [[0; 0; 1]; [1; 0; 1]]) by (apply usable_setb_ok; vm_compute; reflexivity).
  destruct (X (mkTI [[0; 0; 1]; [1; 0; 1]] None) [[0; 0; 1]; [1; 0; 1]] env_rev env_id 2 1 eq_refl US env_rev_ok env_id_ok (le_S _ _ (le_n 1)) (le_n 1)) as (g & t & t' & G1 & G2).
  exists s, g, t, t'. split; [exact Q|]. split; [exact G1|].
  assert (Z : reordered (g_vars (r_g turned)) (g_vars (r_g s)) (mkTI [[0; 0; 1]; [1; 0; 1]] None) = mkTI [[1; 0; 0]; [1; 1; 0]] None).
  { assert (Es : s = state_of (rf_absorb env_id turned true (r_empty (r_h turned) (r_top turned)))) by (rewrite Q; reflexivity).
    rewrite Es. vm_compute. reflexivity. }
  rewrite Z in G2. exact G2.
Qed.
Print Assumptions C46_gradient_partial.
