(** Properties C45 and C53 for the training: the gradient and the training of a model
    read from the file of another model are those of that model, for training sets with
    the values listed in the order of the variables of the model read.
    ([C45_training_set_refuted] and [C53_training_set_refuted] show that the reordering
    is needed.) *)
From Coq Require Import String List Arith Bool Lia Permutation Relations QArith Qcanon Field.
From Verif Require Import Res Num Categoric Combs Func FuncProofs GroupProofs FactorProofs FactorApi Special SpecialProofs
  Graph GraphLemmas Clusters Belief Query GraphInv EvidInv BeliefInv BigOp GraphSpec Hist P_Graph BeliefSpec JointSpec Sums BeliefHist
  Rebuild Train TrainHist Coherent TrainInv P_Categoric P_Factor Demo BeliefDemo TrainDemo P_Train P_Gradient P_GradientDemo P_Joint Separate FieldHist P_Field Plan CopyProofs P_Copy
  IO TextSpec TextProofs Json JsonRead JsonProofs P_Json Xml XmlProofs P_Xml P_FilesAnswers TrainSpec Gradient GradientRun P_CopyAnswers P_CopyGradient
  RealNum Gibbs Tree Cycle BPStep BPRun Exact Queries Parts Joint GibbsProofs Likelihood CRF CRFHist CRFInv CRFSpec CRFGradient Trainer TrainerSpec TrainerProofs P_CRFDemo P_Trainer P_TrainerDemo P_CopyTraining.
Import ListNotations.
Open Scope nat_scope.

(** the value of the variable named [n], in a combination of values of the variables [vs] *)
Definition value_named (vs : list var) (c : list nat) (n : string) : nat :=
  match find_pos (fun v => String.eqb (vname v) n) vs with Some i => nth i c 0 | None => 0 end.
(** the combination, for the variables [vs'] *)
Definition by_names (vs vs' : list var) (c : list nat) : list nat := map (fun u => value_named vs c (vname u)) vs'.
Definition set_by_names (vs vs' : list var) (it : titer) : titer := mkTI (map (by_names vs vs') (ti_combs it)) (ti_subset it).

Lemma value_named_val vs c v : NoDup (map vname vs) -> length c = length vs -> In v vs -> value_named vs c (vname v) = val (combine vs c) v.
Proof.
  intros ND L J. assert (NV : NoDup vs) by (eapply NoDup_map_inv; exact ND). unfold value_named.
  assert (Q : exists i, find_pos (fun w => String.eqb (vname w) (vname v)) vs = Some i /\ nth_error vs i = Some v).
  { clear L NV. induction vs as [|w vs IH]; [destruct J|]. cbn [map] in ND. apply NoDup_cons_iff in ND as [NI ND]. cbn [find_pos].
    destruct (String.eqb_spec (vname w) (vname v)) as [E|E].
    - exists 0. split; auto. destruct J as [->|J]; auto. exfalso. apply NI. rewrite E. apply in_map; auto.
    - destruct J as [->|J]; [congruence|]. destruct (IH ND J) as (i & Q1 & Q2). exists (S i). rewrite Q1. split; auto. }
  destruct Q as (i & -> & Q). symmetry. apply (val_combine vs NV c i v); auto. apply nth_error_nth'. rewrite L. apply nth_error_Some. congruence.
Qed.
Lemma set_by_names_samples vs vs' it samples : iter_samples it = Ok samples -> iter_samples (set_by_names vs vs' it) = Ok (map (by_names vs vs') samples).
Proof.
  unfold iter_samples, set_by_names. cbn [ti_combs ti_subset]. destruct (ti_subset it) as [l|].
  - revert samples. induction l as [|k l IH]; intros samples Q; cbn [rmap] in *.
    + injection Q as <-. reflexivity.
    + unfold vget in *. rewrite nth_error_map. destruct (nth_error (ti_combs it) k) as [c|]; [|discriminate Q]. cbn [option_map rbind] in *.
      destruct (rmap _ l) as [cs| | | |]; try discriminate Q. cbn [rbind] in Q. injection Q as <-. rewrite (IH cs eq_refl). reflexivity.
  - intros Q. injection Q as <-. reflexivity.
Qed.
Lemma valid_length szs c : valid_comb szs c -> length c = length szs.
Proof. unfold valid_comb. induction 1; cbn [length]; congruence. Qed.

Section P.
  Context {N : num} (OK : num_ok N).
  Add Field FTField : (ok_field N OK).

  Section Renamed.
    Variable rho : var -> var.
    Variables (F F' : nat -> func N) (A A' : spec) (l : list nat) (cs cs' : list (list nat)) (ws : list N).
    Hypothesis GF : goods F.
    Hypothesis GF' : goods F'.
    Hypothesis ND : NoDup (sp_vars A).
    Hypothesis ND' : NoDup (sp_vars A').
    Hypothesis FV : forall f, In f (sp_facs A) -> incl (f_vars (F f)) (sp_vars A).
    Hypothesis FV' : forall f, In f (sp_facs A') -> incl (f_vars (F' f)) (sp_vars A').
    Hypothesis RS : forall v, In v (sp_vars A) -> vsize (rho v) = vsize v.
    Hypothesis RI : forall v w, In v (sp_vars A) -> In w (sp_vars A) -> rho v = rho w -> v = w.
    Hypothesis PV : Permutation (map rho (sp_vars A)) (sp_vars A').
    Hypothesis EV : forall v, In v (sp_vars A) -> sp_evidence A' (rho v) = sp_evidence A v.
    Hypothesis PL : Permutation (sp_facs A) l.
    Definition same_values f k : Prop := f_vars (F' k) = map rho (f_vars (F f)) /\ forall c, valid_comb (fsizes (F f)) c -> fval (F' k) c = fval (F f) c.
    Definition same_images f k : Prop := same_values f k /\ forall c, valid_comb (fsizes (F f)) c -> fimg (F' k) c = fimg (F f) c.
    Hypothesis TW : Forall2 same_values l (sp_facs A').
    Hypothesis TC : Forall2 (Forall2 same_images) cs cs'.
    Hypothesis NA : NoDup (sp_facs A).
    Hypothesis NA' : NoDup (sp_facs A').
    Hypothesis NC : NoDup (concat cs).
    Hypothesis NC' : NoDup (concat cs').
    Hypothesis CA : incl (concat cs) (sp_facs A).
    Hypothesis CA' : incl (concat cs') (sp_facs A').
    Hypothesis EX : forall f, In f (concat cs) -> f_exp (F f) <> None.
    Hypothesis LW : length ws = length cs.
    Hypothesis NN : NoDup (map vname (sp_vars A)).
    Hypothesis RN : forall v, In v (sp_vars A) -> vname (rho v) = vname v.

    Notation FW := (with_weights F cs ws).
    Notation FW' := (with_weights F' cs' ws).
    Notation range x := (forall v, In v (sp_vars A) -> val x v < vsize v).
    Notation corr x y := (forall v, In v (sp_vars A) -> val y (rho v) = val x v).

    Lemma corr_vals f x y : In f (sp_facs A) -> corr x y -> map (val y) (map rho (f_vars (F f))) = map (val x) (f_vars (F f)).
    Proof. intros J Q. rewrite map_map. apply map_ext_in. intros v Jv. apply Q. apply (FV f J); auto. Qed.
    Definition retuned' (f k : nat) : Prop := same_values f k /\ forall c, valid_comb (fsizes (F f)) c -> fval (FW' k) c = fval (FW f) c.
    Lemma clusters_retuned' : Forall2 retuned' (concat cs) (concat cs').
    Proof.
      apply (F2_concat same_images retuned' cs cs' TC). intros i c c' f k Qc Qc' Jf Jk (V & I).
      assert (X : exists w, nth_error ws i = Some w).
      { destruct (nth_error ws i) as [w|] eqn:Q; eauto. apply nth_error_None in Q. assert (nth_error cs i <> None) by congruence.
        apply nth_error_Some in H. lia. }
      destruct X as [w Qw]. split; [exact V|]. intros d Vd.
      rewrite (with_weights_in F cs NC ws i c w f Qc Qw Jf), (with_weights_in F' cs' NC' ws i c' w k Qc' Qw Jk).
      unfold fval, transform, with_weight. cbn [f_exp]. f_equal. f_equal. exact (I d Vd).
    Qed.
    Lemma cluster_part' x y : range x -> corr x y ->
      part_of F' (concat cs') y = part_of F (concat cs) x /\ part_of FW' (concat cs') y = part_of FW (concat cs) x.
    Proof.
      intros R Q. assert (X : forall a b, Forall2 retuned' a b -> incl a (sp_facs A) -> part_of F' b y = part_of F a x /\ part_of FW' b y = part_of FW a x);
        [|exact (X _ _ clusters_retuned' CA)].
      induction 1 as [|f k a b ((E & V) & VW) T IH]; intros I. split; reflexivity.
      destruct IH as [IH1 IH2]. { intros g J. apply I. right. exact J. }
      assert (Jf : In f (sp_facs A)) by (apply I; left; reflexivity).
      assert (VC : valid_comb (fsizes (F f)) (map (val x) (f_vars (F f)))) by (apply (P_Copy.in_range F A FV f x R); exact Jf).
      unfold part_of in *. unfold prodL in *. cbn [fold_right]. rewrite IH1, IH2. rewrite !ww_vars, E, (corr_vals f x y Jf Q). rewrite (V _ VC), (VW _ VC). split; reflexivity.
    Qed.
    Lemma retuned_weight' x y : range x -> corr x y -> weight FW' A' y = weight FW A x.
    Proof.
      intros R Q0. destruct (cluster_part' x y R Q0) as [Q1 Q2].
      pose proof (co_weight OK rho F F' A A' l FV PL TW x y Q0 R) as Q.
      rewrite (weight_split OK F A cs NA NC CA), (weight_split OK F' A' cs' NA' NC' CA'), Q1 in Q.
      rewrite (weight_split_at OK F A cs ws NA NC CA), (weight_split_at OK F' A' cs' ws NA' NC' CA'), Q2. f_equal.
      pose proof (cluster_pos OK F cs EX x) as P.
      transitivity ((part_of F' (rest A' cs') y * part_of F (concat cs) x) / part_of F (concat cs) x)%num. { field. exact P. }
      rewrite Q. field. exact P.
    Qed.
    Lemma same_features' c c' x y : (forall f, In f c -> In f (sp_facs A)) -> Forall2 same_images c c' -> range x -> corr x y -> features F' c' y = features F c x.
    Proof.
      intros C1 T R Q. unfold features. revert C1. induction T as [|f k fs ks ((E & _) & V) T IH]; intros C1; [reflexivity|]. rewrite !sumL_cons.
      rewrite IH by (intros g J; apply C1; right; exact J). f_equal. pose proof (C1 f (or_introl eq_refl)) as Jf. unfold feature.
      rewrite E, (corr_vals f x y Jf Q). apply V. apply (P_Copy.in_range F A FV f x R Jf).
    Qed.
    (** a sum on the assignments of the renamed model *)
    Lemma sum_renamed (G : asg -> N) : (forall x y, (forall v, In v (sp_vars A') -> val x v = val y v) -> G x = G y) ->
      (forall x, (forall v, In v (sp_vars A') -> val x v < vsize v) -> (n0 <= G x)%num) ->
      sumL G (all_asg (sp_vars A')) = sumL (fun x => G (rename rho x)) (all_asg (sp_vars A)).
    Proof.
      intros G1 G2. change (bigL SUM G (all_asg (sp_vars A')) = sumL (fun x => G (rename rho x)) (all_asg (sp_vars A))).
      rewrite (all_asg_perm OK SUM _ _ (Permutation_sym PV) ND' G G1 G2). rewrite all_asg_rename by auto. rewrite bigL_map. reflexivity.
    Qed.
    Lemma renamed_corr x : In x (all_asg (sp_vars A)) -> corr x (rename rho x).
    Proof. intros J v Jv. apply val_rename. intros w Jw. apply RI; auto. rewrite <- (asg_domain _ _ J). auto. Qed.
    Lemma FVW' : forall f, In f (sp_facs A') -> incl (f_vars (FW' f)) (sp_vars A').
    Proof. intros f J. rewrite ww_vars. apply FV'; auto. Qed.
    Lemma renamed_expected c c' : (forall f, In f c -> In f (sp_facs A)) -> (forall f, In f c' -> In f (sp_facs A')) -> Forall2 same_images c c' ->
      expected (weight FW' A') A' (features F' c') = expected (weight FW A) A (features F c).
    Proof.
      intros C1 C1' T1. unfold expected, mass. f_equal.
      - rewrite (sum_renamed (fun x => if agrees A' x then (weight FW' A' x * features F' c' x)%num else n0)).
        + apply sumL_ext. intros x J. pose proof (renamed_corr x J) as Q. assert (R : range x) by (intros v Jv; apply (asg_val_range (sp_vars A)); auto).
          rewrite (co_agrees rho A A' PV EV x (rename rho x) Q), (retuned_weight' x _ R Q), (same_features' c c' x _ C1 T1 R Q). reflexivity.
        + intros x y Q. rewrite (agrees_val A' x y Q), (weight_val FW' A' FVW' x y Q), (features_val F' A' FV' c' C1' x y Q). reflexivity.
        + intros x R. destruct (agrees A' x). apply (nmul_nonneg OK). apply (FW_nn OK F' A' cs' ws GF' FV' x R). apply (features_nn OK F' A' GF' FV' c' C1' x R). apply (nle_refl OK).
      - rewrite (sum_renamed (fun x => if agrees A' x && true then weight FW' A' x else n0)).
        + apply sumL_ext. intros x J. pose proof (renamed_corr x J) as Q. assert (R : range x) by (intros v Jv; apply (asg_val_range (sp_vars A)); auto).
          rewrite (co_agrees rho A A' PV EV x (rename rho x) Q), (retuned_weight' x _ R Q). reflexivity.
        + intros x y Q. rewrite (agrees_val A' x y Q), (weight_val FW' A' FVW' x y Q). reflexivity.
        + intros x R. destruct (_ && _). apply (FW_nn OK F' A' cs' ws GF' FV' x R). apply (nle_refl OK).
    Qed.
    Lemma renamed_mean c c' samples : (forall f, In f c -> In f (sp_facs A)) -> Forall2 same_images c c' ->
      (forall k, In k samples -> valid_comb (map vsize (sp_vars A)) k) ->
      mean (sp_vars A') (map (by_names (sp_vars A) (sp_vars A')) samples) (features F' c') = mean (sp_vars A) samples (features F c).
    Proof.
      intros C1 T1 V. unfold mean. rewrite map_length, sumL_map. f_equal. apply sumL_ext. intros k J. unfold TrainSpec.assigned.
      apply (same_features' c c' _ _ C1 T1).
      - apply comb_range; auto.
      - intros v Jv. assert (Jr : In (rho v) (sp_vars A')) by (eapply Permutation_in; [exact PV|apply in_map; exact Jv]).
        apply In_nth_error in Jr as [i Q]. rewrite <- (value_named_val (sp_vars A) k v NN); auto.
        + apply (val_combine _ ND' _ i (rho v)); auto. unfold by_names. rewrite nth_error_map, Q. cbn [option_map]. rewrite RN by exact Jv. reflexivity.
        + pose proof (valid_length _ _ (V k J)) as Z. rewrite map_length in Z. exact Z.
    Qed.
    Lemma renamed_gradient samples : (forall k, In k samples -> valid_comb (map vsize (sp_vars A)) k) ->
      log_gradient F' A' cs' (map (by_names (sp_vars A) (sp_vars A')) samples) ws = log_gradient F A cs samples ws.
    Proof.
      intros V. unfold log_gradient.
      assert (X : forall a b, Forall2 (Forall2 same_images) a b -> incl a cs -> incl b cs' ->
        map (fun c => (mean (sp_vars A') (map (by_names (sp_vars A) (sp_vars A')) samples) (features F' c) - expected (weight FW' A') A' (features F' c))%num) b =
        map (fun c => (mean (sp_vars A) samples (features F c) - expected (weight FW A) A (features F c))%num) a); [|exact (X cs cs' TC (incl_refl _) (incl_refl _))].
      induction 1 as [|c c' a b T T' IH]; intros I I'; cbn [map]; [reflexivity|].
      assert (C1 : forall f, In f c -> In f (sp_facs A)). { intros f J. apply CA. apply in_concat. exists c. split; auto. apply I. left. reflexivity. }
      assert (C1' : forall f, In f c' -> In f (sp_facs A')). { intros f J. apply CA'. apply in_concat. exists c'. split; auto. apply I'. left. reflexivity. }
      rewrite IH by (intros d J; first [apply I|apply I']; right; exact J). f_equal. f_equal.
      - apply (renamed_mean c c' samples C1 T V).
      - apply (renamed_expected c c' C1 C1' T).
    Qed.
    Lemma renamed_positive : positive (weight FW A) A -> positive (weight FW' A') A'.
    Proof.
      intros (x & (I & Ag) & Pw). destruct (co_there rho A A' ND RS RI PV x I) as (y & Iy & Q).
      assert (R : range x) by (intros v Jv; apply (asg_val_range (sp_vars A)); auto).
      exists y. split; [split|]; auto. rewrite (co_agrees rho A A' PV EV x y Q); auto. rewrite (retuned_weight' x y R Q); auto.
    Qed.
    Lemma renamed_symmetric : symmetric F A -> symmetric FW A -> symmetric FW' A'.
    Proof.
      intros S0 SY k v' w' J Hv Hw. destruct (rn_from rho A A' PV v' (proj1 Hv)) as (v & Jv & ->). destruct (rn_from rho A A' PV w' (proj1 Hw)) as (w & Jw & ->).
      apply (rn_hidden rho A A' PV EV v Jv) in Hv. apply (rn_hidden rho A A' PV EV w Jw) in Hw. rewrite !RS by auto.
      destruct J as [Jk X]. unfold fv in X. rewrite ww_vars in X.
      assert (VC : forall f, f_vars (F f) = [v; w] \/ f_vars (F f) = [w; v] -> vsize v = vsize w -> forall a b, a < vsize v -> b < vsize v -> valid_comb (fsizes (F f)) [a; b]).
      { intros f Y Z a b La Lb. unfold fsizes, sizes_of. change (g_soup (f_group (F f))) with (f_vars (F f)). destruct Y as [->| ->]; cbn [map]; repeat constructor; lia. }
      assert (PR : forall f, In f (sp_facs A) -> f_vars (F' k) = map rho (f_vars (F f)) -> f_vars (F f) = [v; w] \/ f_vars (F f) = [w; v]).
      { intros f Jf E. rewrite E in X. destruct X as [X|X]; [left|right]; eapply (rn_pair rho F A); eauto. }
      destruct (in_dec Nat.eq_dec k (concat cs')) as [K|K].
      - apply (F2_in_r _ _ _ clusters_retuned') in K as (f & Jf & ((E & _) & V)). pose proof (PR f (CA f Jf) E) as X'.
        destruct (SY f v w) as [Es Y]; auto. { split. apply CA; auto. unfold fv. rewrite ww_vars. exact X'. }
        split; auto. intros i j Li Lj. rewrite !V by (apply VC; auto). auto.
      - rewrite (with_weights_out F' cs' ws k K). apply (F2_in_r _ _ _ TW) in Jk as (f & Jf & [E V]).
        assert (Jf' : In f (sp_facs A)) by (eapply Permutation_in; [symmetry; exact PL|exact Jf]). pose proof (PR f Jf' E) as X'.
        destruct (S0 f v w) as [Es Y]; auto. { split; auto. }
        split; auto. intros i j Li Lj. rewrite !V by (apply VC; auto). auto.
    Qed.
  End Renamed.

  (** {1 A model and the model read from its file} *)
  Section Read.
    Variables (rnd : N -> N) (src s : rst (N:=N)) (rho : var -> var).
    Hypothesis FS : TrainInv.full True src.
    Hypothesis FS' : TrainInv.full True s.
    Hypothesis CS : coh False src.
    Hypothesis C : coh False s.
    Hypothesis PR : printable src.
    Hypothesis RC : read_content rnd rho src s.
    Hypothesis TR : Forall2 (Forall2 (tuned_reads rnd rho (r_h src) (r_h s))) (tunable_clusters src) (tunable_clusters s).
    Hypothesis EX : exact_values rnd src.

    Lemma tun_all (t : rst (N:=N)) : coh False t -> incl (concat (tunable_clusters t)) (g_all (r_g t)).
    Proof. intros Ct f J. pose proof (ch_r _ _ Ct) as I. apply (ri_in _ I). apply in_or_app. right. apply (ri_tun _ I). exact J. Qed.
    Lemma ft_images : Forall2 (Forall2 (same_images rho (r_h src) (r_h s))) (tunable_clusters src) (tunable_clusters s).
    Proof.
      eapply F2_mono; [|exact TR]. intros c c' Jc _ T. eapply F2_mono; [|exact T]. intros f k Jf _ ((E & V) & _ & I).
      assert (Jf' : In f (g_all (r_g src))) by (apply (tun_all src CS); apply in_concat; exists c; auto).
      destruct (EX f Jf') as [EW EI]. split; [split; [exact E|]|].
      - intros d VD. rewrite V by auto. unfold rounded, fval, transform. rewrite EI by auto. destruct (f_exp (r_h src f)) as [w|]; auto. rewrite (EW w); auto.
      - intros d VD. rewrite I by auto. apply EI; auto.
    Qed.
    Lemma ft_parts : NoDup (sp_vars (bare src)) /\ NoDup (sp_vars (bare s)) /\
      (forall f, In f (sp_facs (bare src)) -> incl (f_vars (r_h src f)) (sp_vars (bare src))) /\
      (forall f, In f (sp_facs (bare s)) -> incl (f_vars (r_h s f)) (sp_vars (bare s))) /\
      (forall v, In v (sp_vars (bare src)) -> vsize (rho v) = vsize v) /\
      (forall v w, In v (sp_vars (bare src)) -> In w (sp_vars (bare src)) -> rho v = rho w -> v = w) /\
      Permutation (map rho (sp_vars (bare src))) (sp_vars (bare s)) /\
      exists l, Permutation (sp_facs (bare src)) l /\ Forall2 (same_values rho (r_h src) (r_h s)) l (sp_facs (bare s)).
    Proof.
      destruct (rd_parts rnd src s rho CS C RC EX) as (ND & ND' & FV & FV' & PV & _ & l & PL & TW).
      split; [exact ND|]. split; [exact ND'|]. split; [exact FV|]. split; [exact FV'|]. split; [exact (rd_size rnd src s rho RC)|].
      split; [exact (rd_inj rnd src s rho PR RC)|]. split; [exact PV|]. exists l. split; [exact PL|exact TW].
    Qed.
    Lemma ft_valid samples : usable_set src samples -> usable_set s (map (by_names (g_vars (r_g src)) (g_vars (r_g s))) samples).
    Proof.
      destruct ft_parts as (ND & ND' & _ & _ & RS & _ & PV & _). intros [NE V]. split. { intros Z. apply map_eq_nil in Z. auto. }
      intros c J. apply in_map_iff in J as (k & <- & J). pose proof (V k J) as Vk. unfold valid_comb, by_names.
      assert (X : forall u, In u (g_vars (r_g s)) -> value_named (g_vars (r_g src)) k (vname u) < vsize u).
      { intros u Ju. eapply Permutation_in in Ju; [|symmetry; exact PV]. apply in_map_iff in Ju as (v & <- & Jv).
        rewrite (rd_name rnd src s rho RC v Jv), (RS v Jv), (value_named_val _ k v (proj1 PR)); auto.
        - apply comb_range; auto.
        - pose proof (valid_length _ _ Vk) as Z. rewrite map_length in Z. exact Z. }
      revert X. generalize (g_vars (r_g s)). intros us. induction us as [|u us IH]; intros X; cbn [map]; constructor.
      - apply X. left. reflexivity.
      - apply IH. intros w Jw. apply X. right. exact Jw.
    Qed.
    Lemma ft_gradient : symmetric_forest src -> positive (weight (r_h src) (bare src)) (bare src) ->
      forall it samples e1 e2 n1 n2, iter_samples it = Ok samples -> usable_set src samples -> env_ok e1 -> env_ok e2 -> 1 <= n1 -> 1 <= n2 ->
        exists (g : list N) (t t' : rst (N:=N)), weights_gradient e1 it n1 src = Ret g t /\
          weights_gradient e2 (set_by_names (g_vars (r_g src)) (g_vars (r_g s)) it) n2 s = Ret g t'.
    Proof.
      intros [SY TF] PO it samples e1 e2 n1 n2 IS US E1 E2 L1 L2.
      destruct ft_parts as (ND & ND' & FV & FV' & RS & RI & PV & l & PL & TW).
      assert (EV : forall v, In v (sp_vars (bare src)) -> sp_evidence (bare s) (rho v) = sp_evidence (bare src) v) by reflexivity.
      assert (SF' : symmetric_forest s).
      { split. { eapply (rn_symmetric rho (r_h src) (r_h s) (bare src) (bare s) l); eauto. }
        intros u Ju. eapply Permutation_in in Ju; [|symmetry; exact PV]. apply in_map_iff in Ju as (v & <- & Jv).
        eapply (rn_tree rho (r_h src) (r_h s) (bare src) (bare s) l); eauto. }
      assert (PO' : positive (weight (r_h s) (bare s)) (bare s)) by (eapply (rn_positive OK rho (r_h src) (r_h s) (bare src) (bare s) l); eauto).
      destruct (scoped_gradient OK src _ e1 it n1 samples FS E1 L1 (conj SY TF) PO IS US) as (t & Qt & _).
      destruct (scoped_gradient OK s _ e2 _ n2 _ FS' E2 L2 SF' PO' (set_by_names_samples _ _ _ _ IS) (ft_valid samples US)) as (t' & Qt' & _).
      eexists. exists t, t'. split; [exact Qt|]. rewrite Qt'. f_equal.
      pose proof (coh_good OK False src CS) as G. pose proof (coh_good OK False s C) as G'.
      pose proof (tun_all src CS) as CA. pose proof (tun_all s C) as CA'. pose proof (rd_name rnd src s rho RC) as RN.
      assert (X : forall a b, Forall2 (Forall2 (same_images rho (r_h src) (r_h s))) a b -> incl (concat a) (sp_facs (bare src)) -> incl (concat b) (sp_facs (bare s)) ->
        map (fun c => (mean (g_vars (r_g s)) (map (by_names (g_vars (r_g src)) (g_vars (r_g s))) samples) (features (r_h s) c) - expected (weight (r_h s) (bare s)) (bare s) (features (r_h s) c))%num) b =
        map (fun c => (mean (g_vars (r_g src)) samples (features (r_h src) c) - expected (weight (r_h src) (bare src)) (bare src) (features (r_h src) c))%num) a);
        [|exact (X _ _ ft_images CA CA')].
      induction 1 as [|c c' a b T T' IH]; intros I I'; cbn [map]; [reflexivity|].
      rewrite IH by (intros d J; first [apply I|apply I']; cbn [concat]; apply in_or_app; right; exact J).
      assert (C1 : forall f, In f c -> In f (sp_facs (bare src))) by (intros f J; apply I; cbn [concat]; apply in_or_app; left; exact J).
      assert (C1' : forall f, In f c' -> In f (sp_facs (bare s))) by (intros f J; apply I'; cbn [concat]; apply in_or_app; left; exact J).
      f_equal. f_equal.
      - eapply (renamed_mean rho (r_h src) (r_h s) (bare src) (bare s)); eauto. exact (proj1 PR). exact (proj2 US).
      - eapply (renamed_expected rho (r_h src) (r_h s) (bare src) (bare s) l [] [] []); eauto; try (intros z []); try constructor.
        + exact (ri_nd _ (ch_r _ _ CS)).
        + exact (ri_nd _ (ch_r _ _ C)).
    Qed.

    Lemma ft_weights ws : get_weights src = Ok ws -> map rnd ws = ws.
    Proof.
      intros GW. destruct (P_Train.get_weights_ok src (ch_r _ _ CS)) as (ws0 & Q & L & X). rewrite GW in Q. injection Q as <-.
      rewrite <- (map_id ws) at 2. apply map_ext_in. intros w J. apply In_nth_error in J as [k K].
      assert (Y : exists c, nth_error (tunable_clusters src) k = Some c).
      { destruct (nth_error (tunable_clusters src) k) as [c|] eqn:Z; eauto. apply nth_error_None in Z. assert (W : nth_error ws k <> None) by congruence. apply nth_error_Some in W. lia. }
      destruct Y as [c Qc]. pose proof (nth_error_In _ _ Qc) as Jc. pose proof (ri_ne _ (ch_r _ _ CS) c Jc) as NE. destruct c as [|f c]; [congruence|].
      refine (proj1 (EX f _) w (X k (f :: c) w Qc K f (or_introl eq_refl))). apply (tun_all src CS). apply in_concat. exists (f :: c). split; auto. left. reflexivity.
    Qed.
    Lemma ft_training ws (t : trainer (N:=N)) floorf rand combs info : tunables_hidden src -> trainable src ->
      get_weights src = Ok ws -> get_weights s = Ok (map rnd ws) ->
      1 <= info_threads info -> usable_set src combs -> enough floorf (info_percentage info) (length combs) ->
      forall es es', (forall k, env_ok (es k)) -> (forall k, env_ok (es' k)) ->
        exists (ends : bool) ws' src' s',
          train_field floorf rand es t combs info src = (if ends then Ret tt src' else Thr src') /\
          train_field floorf rand es' t (map (by_names (g_vars (r_g src)) (g_vars (r_g s))) combs) info s = (if ends then Ret tt s' else Thr s') /\
          get_weights src' = Ok ws' /\ get_weights s' = Ok ws'.
    Proof.
      intros TH [TW0 TF] GW GW' L US EN es es' E1 E2. rewrite (ft_weights ws GW) in GW'.
      destruct ft_parts as (ND & ND' & FV & FV' & RS & RI & PV & l & PL & TW). pose proof ft_images as TC.
      assert (F1 : TrainInv.full False src) by (constructor; [exact CS|apply FS|apply FS]).
      assert (F2 : TrainInv.full False s) by (constructor; [exact C|apply FS'|apply FS']).
      assert (EV : forall v, In v (sp_vars (bare src)) -> sp_evidence (bare s) (rho v) = sp_evidence (bare src) v) by reflexivity.
      destruct (rd_parts rnd src s rho CS C RC EX) as (_ & _ & _ & _ & _ & EV0 & _).
      pose proof (ch_r _ _ CS) as I. pose proof (ch_r _ _ C) as I'.
      pose proof (coh_good OK False src CS) as G. pose proof (coh_good OK False s C) as G'.
      pose proof (tun_all src CS) as CA. pose proof (tun_all s C) as CA'. pose proof (rd_name rnd src s rho RC) as RN.
      assert (LC : length (tunable_clusters s) = length (tunable_clusters src)) by (clear -TC; induction TC; cbn [length]; congruence).
      assert (S0 : symmetric (r_h src) (bare src)).
      { pose proof (ww_same src ws I GW) as W. intros f v w J Hv Hw. destruct (proj1 (TW0 ws (weights_length src ws GW))) with (f:=f) (v:=v) (w:=w) as [Es Y]; auto.
        - destruct J as [J X]. split; auto. unfold fv in *. rewrite ww_vars. exact X.
        - split; auto. intros i j Li Lj. rewrite (W f). auto. }
      assert (TH' : tunables_hidden s).
      { intros c k Jc Jk. apply (F2_in_r _ _ _ TC) in Jc as (d & Jd & T). apply (F2_in_r _ _ _ T) in Jk as (f & Jf & ((Ef & _) & _)).
        destruct (TH d f Jd Jf) as [L2 U]. rewrite Ef, map_length. split; auto. intros u Ju. apply in_map_iff in Ju as (v & <- & Jv). specialize (U v Jv). unfold unobserved in *.
        assert (Jg : In v (g_vars (r_g src))). { apply (FV f); auto. apply CA. apply in_concat. exists d. auto. }
        rewrite known_observed in U by exact Jg. rewrite known_observed by (eapply Permutation_in; [exact PV|apply in_map; exact Jg]).
        change (spec_of (r_g s)) with (contents s). rewrite (EV0 v Jg). exact U. }
      assert (TW1 : forall ws, length ws = length (tunable_clusters s) -> symmetric (with_weights (r_h s) (tunable_clusters s) ws) (bare s) /\
        positive (weight (with_weights (r_h s) (tunable_clusters s) ws) (bare s)) (bare s)).
      { intros us Lu. rewrite LC in Lu. destruct (TW0 us Lu) as [A1 A2]. split.
        - eapply (renamed_symmetric rho (r_h src) (r_h s) (bare src) (bare s) l (tunable_clusters src) (tunable_clusters s) us); eauto; first [apply I|apply I'].
        - eapply (renamed_positive rho (r_h src) (r_h s) (bare src) (bare s) l (tunable_clusters src) (tunable_clusters s) us); eauto; first [apply I|apply I']. }
      assert (TR' : forall v, In v (g_vars (r_g s)) -> tree_around (r_h s) (bare s) v).
      { intros u Ju. eapply Permutation_in in Ju; [|symmetry; exact PV]. apply in_map_iff in Ju as (v & <- & Jv).
        eapply (rn_tree rho (r_h src) (r_h s) (bare src) (bare s) l); eauto. }
      pose proof (ft_valid combs US) as [NE' V']. destruct US as [NE V]. set (f := by_names (g_vars (r_g src)) (g_vars (r_g s))) in *.
      assert (EN' : enough floorf (info_percentage info) (length (map f combs))) by (rewrite map_length; exact EN).
      destruct (train_field_ok OK src es floorf rand t combs info ws F1 TH E1 GW L TW0 TF V (iterators OK floorf rand combs info NE EN) NE) as (src' & Q1 & T1 & _).
      destruct (train_field_ok OK s es' floorf rand t (map f combs) info ws F2 TH' E2 GW' L TW1 TR' V' (iterators OK floorf rand (map f combs) info NE' EN') NE') as (s' & Q2 & T2 & _).
      assert (Z : ideal_training (length (tunable_clusters s)) (fun k => log_gradient (r_h s) (bare s) (tunable_clusters s) (drawn floorf rand (map f combs) (info_percentage info) k)) t 0 ws =
        ideal_training (length (tunable_clusters src)) (fun k => log_gradient (r_h src) (bare src) (tunable_clusters src) (drawn floorf rand combs (info_percentage info) k)) t 0 ws).
      { rewrite LC. apply ideal_same; [|apply (weights_length src ws GW)]. intros k us Lu. rewrite drawn_map by exact NE.
        eapply (renamed_gradient rho (r_h src) (r_h s) (bare src) (bare s) l (tunable_clusters src) (tunable_clusters s) us); eauto; try first [apply I|apply I'].
        - exact (proj1 PR).
        - intros c J. apply V. eapply drawn_in; eauto. }
      rewrite Z in Q2, T2. eexists. eexists. exists src', s'. split; [exact Q1|]. split; [exact Q2|].
      split; [apply (ts_get _ _ _ T1)|apply (ts_get _ _ _ T2)].
    Qed.
  End Read.

  (** {1 The properties} *)
  Variables (fprint : N -> string) (atof : string -> N).
  Hypothesis fprint_plain : forall x, plain (fprint x).
  Notation rnd := (fun x => atof (fprint x)).
  Hypothesis rnd_zero : rnd n0 = n0.
  Hypothesis rnd_nonneg : forall x, (n0 <= x)%num -> (n0 <= rnd x)%num.

  (** Exact numbers, models with values and weights that the printing does not change.
      Missing: cycles, and models with a value changed by the printing. *)
  Theorem C45_gradient_partial : forall h top (src : rst (N:=N)) e e' h' top' next, (forall f, built (h f)) -> rreach h top alert src -> env_ok e -> env_ok e' ->
    (forall f, built (h' f)) -> printable src -> no_lone_variable src -> all_listed src -> clear_sharing src -> exact_values rnd src ->
    symmetric_forest src -> positive (weight (r_h src) (bare src)) (bare src) ->
    exists j s, export_json fprint e true src = Ok j /\ import_json atof e' true next j (r_empty h' top') = Ret tt s /\
      forall it samples e1 e2 n1 n2, iter_samples it = Ok samples -> usable_set src samples -> env_ok e1 -> env_ok e2 -> 1 <= n1 -> 1 <= n2 ->
        exists (g : list N) (t t' : rst (N:=N)), weights_gradient e1 it n1 src = Ret g t /\
          weights_gradient e2 (set_by_names (g_vars (r_g src)) (g_vars (r_g s)) it) n2 s = Ret g t'.
  Proof.
    intros h top src e e' h' top' next Hb R E E' Hb' PR NL AL CL EX SF PO.
    destruct (C45_field_partial OK fprint atof fprint_plain rnd_zero rnd_nonneg h top src e e' h' top' next Hb (alert_careful _ _ _ R) E E' Hb' PR NL AL CL)
      as (j & s & rho & Q1 & Q2 & RC & TC & _ & _ & _ & R').
    exists j, s. split; [exact Q1|]. split; [exact Q2|].
    exact (ft_gradient rnd src s rho (proj1 (rreach_current OK _ _ src Hb R)) (proj1 (rreach_current OK _ _ s Hb' R'))
      (rreach_coh False _ _ _ Hb (alert_careful _ _ _ R)) (rreach_coh False _ _ _ Hb' (alert_careful _ _ _ R')) PR RC TC EX SF PO).
  Qed.
  Theorem C45_training_partial : forall h top (src : rst (N:=N)) e e' h' top' next ws (t : trainer (N:=N)) floorf rand combs info,
    (forall f, built (h f)) -> rreach h top alert src -> env_ok e -> env_ok e' ->
    (forall f, built (h' f)) -> printable src -> no_lone_variable src -> all_listed src -> clear_sharing src -> exact_values rnd src ->
    tunables_hidden src -> trainable src -> get_weights src = Ok ws ->
    1 <= info_threads info -> usable_set src combs -> enough floorf (info_percentage info) (length combs) ->
    exists j s, export_json fprint e true src = Ok j /\ import_json atof e' true next j (r_empty h' top') = Ret tt s /\
      forall es es', (forall k, env_ok (es k)) -> (forall k, env_ok (es' k)) ->
        exists (ends : bool) ws' src' s',
          train_field floorf rand es t combs info src = (if ends then Ret tt src' else Thr src') /\
          train_field floorf rand es' t (map (by_names (g_vars (r_g src)) (g_vars (r_g s))) combs) info s = (if ends then Ret tt s' else Thr s') /\
          get_weights src' = Ok ws' /\ get_weights s' = Ok ws'.
  Proof.
    intros h top src e e' h' top' next ws t floorf rand combs info Hb R E E' Hb' PR NL AL CL EX TH TN GW L US EN.
    destruct (C45_field_partial OK fprint atof fprint_plain rnd_zero rnd_nonneg h top src e e' h' top' next Hb (alert_careful _ _ _ R) E E' Hb' PR NL AL CL)
      as (j & s & rho & Q1 & Q2 & RC & TC & (ws0 & W & W') & _ & _ & R'). rewrite GW in W. injection W as <-.
    exists j, s. split; [exact Q1|]. split; [exact Q2|].
    exact (ft_training rnd src s rho (proj1 (rreach_current OK _ _ src Hb R)) (proj1 (rreach_current OK _ _ s Hb' R'))
      (rreach_coh False _ _ _ Hb (alert_careful _ _ _ R)) (rreach_coh False _ _ _ Hb' (alert_careful _ _ _ R')) PR RC TC EX ws t floorf rand combs info TH TN GW W' L US EN).
  Qed.

  Variable place : list nat -> list nat.
  Hypothesis OR : orderly place.
  Variable files : string -> option string.
  Variable prefix : string.
  Theorem C53_gradient_partial : forall h top (src : rst (N:=N)) e e' h' top' next, (forall f, built (h f)) -> rreach h top alert src -> env_ok e -> env_ok e' ->
    (forall f, built (h' f)) -> printable src -> no_lone_variable src -> all_listed src -> clear_sharing src -> exact_values rnd src ->
    symmetric_forest src -> positive (weight (r_h src) (bare src)) (bare src) ->
    exists x, export_xml fprint e true src = Ok x /\ forall x', reads place x x' ->
    exists s, import_xml atof place files prefix e' true next x' (r_empty h' top') = Ret tt s /\
      forall it samples e1 e2 n1 n2, iter_samples it = Ok samples -> usable_set src samples -> env_ok e1 -> env_ok e2 -> 1 <= n1 -> 1 <= n2 ->
        exists (g : list N) (t t' : rst (N:=N)), weights_gradient e1 it n1 src = Ret g t /\
          weights_gradient e2 (set_by_names (g_vars (r_g src)) (g_vars (r_g s)) it) n2 s = Ret g t'.
  Proof.
    intros h top src e e' h' top' next Hb R E E' Hb' PR NL AL CL EX SF PO.
    destruct (C53_field_partial OK fprint atof fprint_plain rnd_zero rnd_nonneg place OR files prefix h top src e e' h' top' next Hb (alert_careful _ _ _ R) E E' Hb' PR NL AL CL)
      as (x & Q1 & Q).
    exists x. split; [exact Q1|]. intros x' RT. destruct (Q x' RT) as (s & rho & Q2 & RC & TC & _ & _ & _ & R'). exists s. split; [exact Q2|].
    exact (ft_gradient rnd src s rho (proj1 (rreach_current OK _ _ src Hb R)) (proj1 (rreach_current OK _ _ s Hb' R'))
      (rreach_coh False _ _ _ Hb (alert_careful _ _ _ R)) (rreach_coh False _ _ _ Hb' (alert_careful _ _ _ R')) PR RC TC EX SF PO).
  Qed.
  Theorem C53_training_partial : forall h top (src : rst (N:=N)) e e' h' top' next ws (t : trainer (N:=N)) floorf rand combs info,
    (forall f, built (h f)) -> rreach h top alert src -> env_ok e -> env_ok e' ->
    (forall f, built (h' f)) -> printable src -> no_lone_variable src -> all_listed src -> clear_sharing src -> exact_values rnd src ->
    tunables_hidden src -> trainable src -> get_weights src = Ok ws ->
    1 <= info_threads info -> usable_set src combs -> enough floorf (info_percentage info) (length combs) ->
    exists x, export_xml fprint e true src = Ok x /\ forall x', reads place x x' ->
    exists s, import_xml atof place files prefix e' true next x' (r_empty h' top') = Ret tt s /\
      forall es es', (forall k, env_ok (es k)) -> (forall k, env_ok (es' k)) ->
        exists (ends : bool) ws' src' s',
          train_field floorf rand es t combs info src = (if ends then Ret tt src' else Thr src') /\
          train_field floorf rand es' t (map (by_names (g_vars (r_g src)) (g_vars (r_g s))) combs) info s = (if ends then Ret tt s' else Thr s') /\
          get_weights src' = Ok ws' /\ get_weights s' = Ok ws'.
  Proof.
    intros h top src e e' h' top' next ws t floorf rand combs info Hb R E E' Hb' PR NL AL CL EX TH TN GW L US EN.
    destruct (C53_field_partial OK fprint atof fprint_plain rnd_zero rnd_nonneg place OR files prefix h top src e e' h' top' next Hb (alert_careful _ _ _ R) E E' Hb' PR NL AL CL)
      as (x & Q1 & Q).
    exists x. split; [exact Q1|]. intros x' RT. destruct (Q x' RT) as (s & rho & Q2 & RC & TC & (ws0 & W & W') & _ & _ & R'). rewrite GW in W. injection W as <-.
    exists s. split; [exact Q2|].
    exact (ft_training rnd src s rho (proj1 (rreach_current OK _ _ src Hb R)) (proj1 (rreach_current OK _ _ s Hb' R'))
      (rreach_coh False _ _ _ Hb (alert_careful _ _ _ R)) (rreach_coh False _ _ _ Hb' (alert_careful _ _ _ R')) PR RC TC EX ws t floorf rand combs info TH TN GW W' L US EN).
  Qed.
End P.

(** {1 Examples} *)
(** The model of [C45_training_set_refuted]: the variables C, D, A of the source are
    listed as A, C, D by the model read. *)
Lemma turned_sf : symmetric_forest turned.
Proof.
  apply (symmetric_forestb_ok QcNum_ok True). exact (fl_coh _ _ (proj1 (rreach_current QcNum_ok _ _ turned gH_built turned_reach))). vm_compute. reflexivity.
Qed.
Lemma turned_po : positive (weight (r_h turned) (bare turned)) (bare turned).
Proof. apply positiveb_ok. vm_compute. reflexivity. Qed.
Lemma turned_print : printable turned.
Proof. apply printableb_ok. vm_compute. reflexivity. Qed.
Lemma turned_exact : exact_values rnd6 turned.
Proof. apply exactb_ok. vm_compute. reflexivity. Qed.
Lemma turned_usable : usable_set turned [[0; 0; 1]; [1; 0; 1]].
Proof. apply usable_setb_ok. vm_compute. reflexivity. Qed.
Example C45_gradient_example : exists j s g t t', export_json print6 env_id true turned = Ok j /\ import_json read6 env_id true 40 j (r_empty gH 6) = Ret tt s /\
  weights_gradient env_rev (mkTI [[0; 0; 1]; [1; 0; 1]] None) 2 turned = Ret g t /\
  weights_gradient env_id (mkTI [[1; 0; 0]; [1; 1; 0]] None) 1 s = Ret g t'.
Proof.
  destruct (C45_gradient_partial QcNum_ok print6 read6 print6_plain read6_zero read6_nonneg gH 6 turned env_id env_id gH 6 40 gH_built turned_reach
    env_id_ok env_id_ok gH_built turned_print turned_lone turned_listed turned_clear turned_exact turned_sf turned_po) as (j & s & Q1 & Q2 & X).
  destruct (X (mkTI [[0; 0; 1]; [1; 0; 1]] None) [[0; 0; 1]; [1; 0; 1]] env_rev env_id 2 1 eq_refl turned_usable env_rev_ok env_id_ok (le_S _ _ (le_n 1)) (le_n 1)) as (g & t & t' & G1 & G2).
  exists j, s, g, t, t'. split; [exact Q1|]. split; [exact Q2|]. split; [exact G1|].
  assert (Z : set_by_names (g_vars (r_g turned)) (g_vars (r_g s)) (mkTI [[0; 0; 1]; [1; 0; 1]] None) = mkTI [[1; 0; 0]; [1; 1; 0]] None).
  { assert (Ej : j = text_of turned) by (unfold text_of; rewrite Q1; reflexivity).
    assert (Es : s = state_of (import_json read6 env_id true 40 j (r_empty gH 6))) by (rewrite Q2; reflexivity).
    rewrite Es, Ej. vm_compute. reflexivity. }
  rewrite Z in G2. exact G2.
Qed.
Example C53_gradient_example : exists x s g t t', export_xml print6 env_id true turned = Ok x /\
  import_xml read6 at_front no_file "" env_id true 40 (again at_front x) (r_empty gH 6) = Ret tt s /\
  weights_gradient env_rev (mkTI [[0; 0; 1]; [1; 0; 1]] None) 2 turned = Ret g t /\
  weights_gradient env_id (set_by_names (g_vars (r_g turned)) (g_vars (r_g s)) (mkTI [[0; 0; 1]; [1; 0; 1]] None)) 1 s = Ret g t'.
Proof.
  destruct (C53_gradient_partial QcNum_ok print6 read6 print6_plain read6_zero read6_nonneg at_front at_front_orderly no_file "" gH 6 turned env_id env_id gH 6 40 gH_built turned_reach
    env_id_ok env_id_ok gH_built turned_print turned_lone turned_listed turned_clear turned_exact turned_sf turned_po) as (x & Q1 & Q).
  destruct (Q (again at_front x) (again_reads at_front (proj1 at_front_orderly) x)) as (s & Q2 & X).
  destruct (X (mkTI [[0; 0; 1]; [1; 0; 1]] None) [[0; 0; 1]; [1; 0; 1]] env_rev env_id 2 1 eq_refl turned_usable env_rev_ok env_id_ok (le_S _ _ (le_n 1)) (le_n 1)) as (g & t & t' & G1 & G2).
  exists x, s, g, t, t'. split; [exact Q1|]. split; [exact Q2|]. split; [exact G1|exact G2].
Qed.

(** The model of the example of C52, and two steps of a descent. *)
Lemma t_reach : rreach tH 6 alert t_state.
Proof. apply rruns_alert. constructor. vm_compute. reflexivity. Qed.
Lemma t_print : printable t_state.
Proof. apply printableb_ok. vm_compute. reflexivity. Qed.
Lemma t_lone : no_lone_variable t_state.
Proof. apply no_lone_variableb_ok. vm_compute. reflexivity. Qed.
Lemma t_listed : all_listed t_state.
Proof. apply all_listedb_ok. vm_compute. reflexivity. Qed.
Lemma t_clear : clear_sharing t_state.
Proof. apply (clearb_ok QcNum_ok). exact (ri_built _ (rreach_inv _ _ _ _ tH_built t_reach)). vm_compute. reflexivity. Qed.
Lemma t_exact : exact_values rnd6 t_state.
Proof. apply exactb_ok. vm_compute. reflexivity. Qed.
Lemma t_hidden : tunables_hidden t_state.
Proof. apply tunables_hiddenb_ok. vm_compute. reflexivity. Qed.
Lemma t_trainable : trainable t_state.
Proof. apply (trainableb_ok QcNum_ok False). exact t_coh. vm_compute. reflexivity. Qed.
Lemma t_weights : get_weights t_state = Ok [q 1 2; q 1 1].
Proof. vm_compute. reflexivity. Qed.
Lemma t_threads : 1 <= info_threads t_info.
Proof. apply Nat.leb_le. reflexivity. Qed.
Lemma t_usable : usable_set t_state t_combs.
Proof. apply usable_setb_ok. vm_compute. reflexivity. Qed.
Example C45_training_example : exists j s ws' src' s',
  export_json print6 env_rev true t_state = Ok j /\ import_json read6 env_id true 40 j (r_empty gH 6) = Ret tt s /\
  train_field qfloor t_rand (fun _ => env_rev) (descent (q 1 2) 2) t_combs t_info t_state = Ret tt src' /\
  train_field qfloor t_rand (fun _ => env_id) (descent (q 1 2) 2) (map (by_names (g_vars (r_g t_state)) (g_vars (r_g s))) t_combs) t_info s = Ret tt s' /\
  get_weights src' = Ok ws' /\ get_weights s' = Ok ws'.
Proof.
  destruct (C45_training_partial QcNum_ok print6 read6 print6_plain read6_zero read6_nonneg tH 6 t_state env_rev env_id gH 6 40 [q 1 2; q 1 1] (descent (q 1 2) 2) qfloor t_rand t_combs t_info
    tH_built t_reach env_rev_ok env_id_ok gH_built t_print t_lone t_listed t_clear t_exact t_hidden t_trainable t_weights t_threads t_usable t_enough) as (j & s & Q1 & Q2 & X).
  destruct (X (fun _ => env_rev) (fun _ => env_id)) as (b & ws' & src' & s' & E1 & E2 & W1 & W2). { intros _. apply env_rev_ok. } { intros _. apply env_id_ok. }
  destruct C52_example as (s0 & E0 & _). destruct b; [|rewrite E0 in E1; discriminate E1].
  exists j, s, ws', src', s'. split; [exact Q1|]. split; [exact Q2|]. split; [exact E1|]. split; [exact E2|]. split; [exact W1|exact W2].
Qed.
Example C53_training_example : exists x s ws' src' s',
  export_xml print6 env_rev true t_state = Ok x /\ import_xml read6 at_front no_file "" env_id true 40 (again at_front x) (r_empty gH 6) = Ret tt s /\
  train_field qfloor t_rand (fun _ => env_rev) (descent (q 1 2) 2) t_combs t_info t_state = Ret tt src' /\
  train_field qfloor t_rand (fun _ => env_id) (descent (q 1 2) 2) (map (by_names (g_vars (r_g t_state)) (g_vars (r_g s))) t_combs) t_info s = Ret tt s' /\
  get_weights src' = Ok ws' /\ get_weights s' = Ok ws'.
Proof.
  destruct (C53_training_partial QcNum_ok print6 read6 print6_plain read6_zero read6_nonneg at_front at_front_orderly no_file "" tH 6 t_state env_rev env_id gH 6 40 [q 1 2; q 1 1] (descent (q 1 2) 2) qfloor t_rand t_combs t_info
    tH_built t_reach env_rev_ok env_id_ok gH_built t_print t_lone t_listed t_clear t_exact t_hidden t_trainable t_weights t_threads t_usable t_enough) as (x & Q1 & Q).
  destruct (Q (again at_front x) (again_reads at_front (proj1 at_front_orderly) x)) as (s & Q2 & X).
  destruct (X (fun _ => env_rev) (fun _ => env_id)) as (b & ws' & src' & s' & E1 & E2 & W1 & W2). { intros _. apply env_rev_ok. } { intros _. apply env_id_ok. }
  destruct C52_example as (s0 & E0 & _). destruct b; [|rewrite E0 in E1; discriminate E1].
  exists x, s, ws', src', s'. split; [exact Q1|]. split; [exact Q2|]. split; [exact E1|]. split; [exact E2|]. split; [exact W1|exact W2].
Qed.

Print Assumptions C45_gradient_partial.
Print Assumptions C45_training_partial.
Print Assumptions C53_gradient_partial.
Print Assumptions C53_training_partial.
