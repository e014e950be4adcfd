(** Property C49: the answers of a random field (queries and gradients) are those
    of the current weights, whatever was asked and changed before.

    The states are the ones reached by any sequence of calls of the API of a
    random field - insertions, changes of the evidences and of the weights,
    queries, gradients - that respects [alert] (FieldHist.v). What is asked of a
    state is compared with sums over the assignments of its variables
    ([weight], [marginal], [mass] of BeliefSpec.v) where the factors have the
    weights they have at that moment, or the ones just given. *)
From Coq Require Import String List Arith Bool Lia Permutation Relations QArith Qcanon.
From Verif Require Import Res Num Categoric Combs Func FuncProofs GroupProofs FactorProofs FactorApi Special SpecialProofs
  Graph GraphLemmas Clusters Belief Query GraphInv EvidInv BeliefInv BigOp Tree Cycle BPStep BPRun GraphSpec Hist P_Graph BeliefSpec Sums Exact BeliefHist Queries
  Rebuild P_Belief Parts JointSpec Joint P_Joint Train TrainHist Coherent TrainSpec Gradient TrainInv GradientRun P_Categoric P_Factor Demo BeliefDemo TrainDemo P_Train
  P_Gradient P_GradientDemo FieldHist.
Import ListNotations.
Open Scope nat_scope.
Notation hidden := BeliefSpec.hidden.

Section P.
  Context {N : num} (OK : num_ok N).
  Notation rst := (rst (N:=N)).
  Implicit Types s : rst.

  (** {1 What is asked of any reached state} *)
  Theorem C49_marginals_partial : forall h top s e n v, (forall f, built (h f)) -> rreach h top alert s -> env_ok e -> 1 <= n ->
    symmetric (r_h s) (contents s) -> positive (weight (r_h s) (contents s)) (contents s) ->
    hidden (contents s) v -> tree_around (r_h s) (contents s) v ->
    exists g, get_marginal (r_h s) e v n (r_g s) = Ret (map (marginal (weight (r_h s) (contents s)) (contents s) v) (seq 0 (vsize v))) g.
  Proof.
    intros h top s e n v Hb R E L SY PO Hv T. pose proof (rreach_current OK h top s Hb R) as CU. pose proof (current_usable s CU) as U.
    pose proof (coh_good OK True s (fl_coh _ _ (proj1 CU))) as HG.
    set (A := contents s) in *. set (H := r_h s) in *. pose proof U as [[C _] AB _ _].
    assert (EX : forall x, In x (all_asg (sp_vars A)) -> weight_swapped H A x = weight H A x) by (intros x; apply (symmetric_weight H (r_g s)); auto).
    destruct (marginal_exact OK H HG A e n (r_g s) v U E L (symmetric_balanced H A SY)) as [s' Q]; auto.
    { eapply positive_ext; [|exact PO]. intros; symmetry; auto. }
    exists s'. rewrite Q. f_equal. apply map_ext. intros j. apply marginal_ext. auto.
  Qed.

  Theorem C49_map_partial : forall h top s e n v, (forall f, built (h f)) -> rreach h top alert s -> env_ok e -> 1 <= n ->
    symmetric (r_h s) (contents s) -> above_floor (r_h s) (contents s) -> positive (weight (r_h s) (contents s)) (contents s) ->
    hidden (contents s) v -> tree_around (r_h s) (contents s) v ->
    exists j g, get_map (r_h s) e v n (r_g s) = Ret j g /\
      (exists x, most_probable (weight (r_h s) (contents s)) (contents s) x /\ val x v = j) /\
      (forall x, most_probable (weight (r_h s) (contents s)) (contents s) x -> j <= val x v).
  Proof.
    intros h top s e n v Hb R E L SY AF PO Hv T. pose proof (rreach_current OK h top s Hb R) as CU. pose proof (current_usable s CU) as U.
    pose proof (coh_good OK True s (fl_coh _ _ (proj1 CU))) as HG.
    set (A := contents s) in *. set (H := r_h s) in *. pose proof U as [[C _] AB _ _].
    assert (EX : forall x, In x (all_asg (sp_vars A)) -> weight_swapped H A x = weight H A x) by (intros x; apply (symmetric_weight H (r_g s)); auto).
    destruct (map_hidden OK H HG A e n (r_g s) v U E L (symmetric_balanced H A SY)) as (j & s' & Q & Bj); auto.
    { eapply positive_ext; [|exact PO]. intros; symmetry; auto. }
    exists j, s'. split; auto. apply (best_ext _ (weight H A)) in Bj; auto.
  Qed.

  Theorem C49_joint_partial : forall h top s e n g, (forall f, built (h f)) -> rreach h top alert s -> env_ok e -> 1 <= n ->
    symmetric (r_h s) (contents s) -> positive (weight (r_h s) (contents s)) (contents s) ->
    group_of (r_h s) (contents s) g -> joined_inside (r_h s) (contents s) (g_soup g) -> one_observed (contents s) (g_soup g) ->
    exists f g', get_joint (r_h s) e g n (r_g s) = Ret f g' /\ f_vars f = g_soup g /\
      exists c, (n0 < c)%num /\ forall l, valid_comb (map vsize (g_soup g)) l ->
        fval f l = (c * mass (weight (r_h s) (contents s)) (contents s) (takes_all (g_soup g) l))%num.
  Proof.
    intros h top s e n g Hb R E L SY PO (WG & NE & KN & TR) JI OO. pose proof (rreach_current OK h top s Hb R) as CU. pose proof (current_usable s CU) as U.
    pose proof (coh_good OK True s (fl_coh _ _ (proj1 CU))) as HG.
    destruct (joint_exact OK (r_h s) HG (contents s) e n (r_g s) g U E L SY PO WG NE KN TR JI OO) as (f & s' & Q & _ & Gf & _ & c & Pc & V).
    exists f, s'. split; auto. split; [unfold f_vars; rewrite Gf; auto|]. eauto.
  Qed.

  Theorem C49_observed_partial : forall h top s e n v o, (forall f, built (h f)) -> rreach h top alert s -> env_ok e -> 1 <= n ->
    balanced (r_h s) (contents s) -> positive (weight_swapped (r_h s) (contents s)) (contents s) ->
    In v (sp_vars (contents s)) -> sp_evidence (contents s) v = Some o ->
    exists g, get_marginal (r_h s) e v n (r_g s) = Ret (map (fun j => if Nat.eqb j o then n1 else n0) (seq 0 (vsize v))) g.
  Proof.
    intros h top s e n v o Hb R E L B PO Iv Hv. pose proof (rreach_current OK h top s Hb R) as CU. pose proof (current_usable s CU) as U.
    pose proof (coh_good OK True s (fl_coh _ _ (proj1 CU))) as HG.
    destruct (marginal_observed OK (r_h s) HG _ e SUM n (r_g s) v o U E L B PO Iv Hv) as (s' & _ & _ & _ & _ & Q).
    exists s'. unfold get_marginal. destruct (Q e n E) as [Q1 Q2]. rewrite Q2. exact Q1.
  Qed.

  (** {1 Right after setWeights}

      The full property has no hypothesis on the tunable factors and on the
      history: it is proved when the tunable factors join two hidden variables
      ([tunables_hidden]), refuted below for the others. *)
  Lemma steady_weaken s op : steady True s op -> steady False s op.
  Proof.
    intros [H T]. split; auto. destruct op as [f|f|f|cp l|[f|] [sh|]|f sh|cp l|cp cs|ws| |it n|op]; simpl in *; auto.
    split; [apply H|tauto].
  Qed.
  Lemma rreach_mono h top (G G' : rst -> rop (N:=N) -> Prop) s : (forall s op, G s op -> G' s op) -> rreach h top G s -> rreach h top G' s.
  Proof.
    intros M R. induction R.
    - constructor.
    - eapply RR_ret; eauto.
    - eapply RR_thr; eauto.
  Qed.

  Theorem C49_weights_effective : forall h top s ws, (forall f, built (h f)) -> rreach h top alert s -> tunables_hidden s ->
    length ws = length (tunable_clusters s) ->
    exists s', set_weights ws s = Ret tt s' /\ rreach h top alert s' /\ get_weights s' = Ok ws /\ contents s' = contents s /\
      tunable_clusters s' = tunable_clusters s /\ forall f, r_h s' f = with_weights (r_h s) (tunable_clusters s) ws f.
  Proof.
    intros h top s ws Hb R TH L. pose proof (rreach_current OK h top s Hb R) as CU. pose proof (ch_r _ _ (fl_coh _ _ (proj1 CU))) as RI.
    destruct (C39_weights_set h top s ws Hb (rreach_mono h top alert any s (fun _ _ _ => Logic.I) R) L) as (s' & Q & QA & QH).
    assert (L' : length ws = length (r_tuners s)) by (rewrite L; unfold tunable_clusters; apply map_length).
    destruct (set_weights_ok s ws RI L') as (h' & Q' & _). rewrite Q in Q'. injection Q' as Q'.
    assert (R' : rreach h top alert s').
    { eapply RR_ret with (e := env_id) (op := RWeights ws); [exact R|exact Logic.I| |apply env_id_ok|].
      split; [split; simpl; auto|exact Logic.I]. cbn [rcall]. unfold runit, rmapo. rewrite Q. reflexivity. }
    destruct (C37_set_weights h top s ws Hb (rreach_mono h top alert any s (fun _ _ _ => Logic.I) R) L) as (s2 & Q2 & W & _). rewrite Q in Q2. injection Q2 as <-.
    exists s'. split; auto. split; auto. split; [exact W|]. split; [rewrite Q'; reflexivity|]. split; [rewrite Q'; reflexivity|exact QH].
  Qed.

  Section Heap.
    Variables F F' : nat -> func N.
    Hypothesis E : forall f, F' f = F f.
    Lemma heap_weight A x : weight F' A x = weight F A x.
    Proof. unfold weight. apply prodL_ext. intros f _. rewrite E. auto. Qed.
    Lemma heap_positive A : positive (weight F A) A -> positive (weight F' A) A.
    Proof. intros (x & Px & Wx). exists x. split; auto. rewrite heap_weight. auto. Qed.
    Lemma heap_symmetric A : symmetric F A -> symmetric F' A.
    Proof.
      intros SY f v w [J1 J2] Hv Hw. rewrite E. apply SY; auto. split; auto. unfold fv in *. rewrite E in J2. auto.
    Qed.
    Lemma heap_edge A v w : hidden_edge F' A v w -> hidden_edge F A v w.
    Proof. intros (Hv & Hw & f & J1 & J2). split; [exact Hv|split; [exact Hw|]]. exists f. split; auto. unfold fv in *. rewrite E in J2. auto. Qed.
  End Heap.
  Lemma vars_edge (F F' : nat -> func N) A v w : (forall f, f_vars (F' f) = f_vars (F f)) -> hidden_edge F' A v w -> hidden_edge F A v w.
  Proof. intros E (Hv & Hw & f & J1 & J2). split; [exact Hv|split; [exact Hw|]]. exists f. split; auto. unfold fv in *. rewrite E in J2. auto. Qed.
  Lemma vars_tree (F F' : nat -> func N) A v : (forall f, f_vars (F' f) = f_vars (F f)) -> tree_around F A v -> tree_around F' A v.
  Proof.
    intros E T (c & (R1 & R2 & R3) & L). apply T. exists c. split.
    - split; auto. split; auto. intros. eapply vars_edge; eauto.
    - intros w J. specialize (L w J). clear - L E. induction L as [a b Q|a|a b c _ I1 _ I2].
      + apply rt_step. eapply vars_edge; eauto.
      + apply rt_refl.
      + eapply rt_trans; eauto.
  Qed.
  Lemma with_weights_vars (F : nat -> func N) cs ws f : f_vars (with_weights F cs ws f) = f_vars (F f).
  Proof. revert ws. induction cs as [|c cs IH]; intros [|w ws]; simpl; auto. destruct (existsb _ c); auto. Qed.

  (** After [setWeights] the marginals are those of the factors with the new
      weights, whatever was asked before. *)
  Theorem C49_marginals_after_partial : forall h top s ws e n v, (forall f, built (h f)) -> rreach h top alert s -> tunables_hidden s ->
    length ws = length (tunable_clusters s) -> env_ok e -> 1 <= n ->
    let F := with_weights (r_h s) (tunable_clusters s) ws in
    symmetric F (contents s) -> positive (weight F (contents s)) (contents s) -> hidden (contents s) v -> tree_around (r_h s) (contents s) v ->
    exists s' g, set_weights ws s = Ret tt s' /\
      get_marginal (r_h s') e v n (r_g s') = Ret (map (marginal (weight F (contents s)) (contents s) v) (seq 0 (vsize v))) g.
  Proof.
    intros h top s ws e n v Hb R TH L E Ln F SY PO Hv T. destruct (C49_weights_effective h top s ws Hb R TH L) as (s' & Q & R' & _ & EC & _ & EH).
    destruct (C49_marginals_partial h top s' e n v Hb R' E Ln) as [g G]; rewrite ?EC; auto.
    - apply (heap_symmetric F); auto.
    - apply (heap_positive F); auto.
    - apply (vars_tree (r_h s)); auto. intros f. rewrite EH. apply with_weights_vars.
    - exists s', g. split; auto. rewrite G, EC. f_equal. apply map_ext. intros j. apply marginal_ext. intros x _. apply heap_weight; auto.
  Qed.

  (** ... and so is the gradient. *)
  Theorem C49_gradient_after_partial : forall h top s ws e it n samples, (forall f, built (h f)) -> rreach h top alert s -> tunables_hidden s ->
    length ws = length (tunable_clusters s) -> env_ok e -> 1 <= n ->
    let F := with_weights (r_h s) (tunable_clusters s) ws in
    symmetric F (bare s) -> (forall v, In v (g_vars (r_g s)) -> tree_around (r_h s) (bare s) v) -> positive (weight F (bare s)) (bare s) ->
    iter_samples it = Ok samples -> usable_set s samples ->
    exists s' g s'', set_weights ws s = Ret tt s' /\ weights_gradient e it n s' = Ret g s'' /\ length g = length (tunable_clusters s) /\
      forall k c, nth_error (tunable_clusters s) k = Some c ->
        nth_error g k = Some (mean (g_vars (r_g s)) samples (features (r_h s) c) - expected (weight F (bare s)) (bare s) (features (r_h s) c))%num.
  Proof.
    intros h top s ws e it n samples Hb R TH L E Ln F SY TR PO IS US. destruct (C49_weights_effective h top s ws Hb R TH L) as (s' & Q & R' & _ & EC & ET & EH).
    assert (EV : g_vars (r_g s') = g_vars (r_g s)) by (exact (f_equal sp_vars EC)).
    assert (EA : g_all (r_g s') = g_all (r_g s)) by (exact (f_equal sp_facs EC)).
    assert (EB : bare s' = bare s) by (unfold bare; rewrite EV, EA; reflexivity).
    assert (R2 : rreach h top (steady False) s') by (eapply rreach_mono; [|exact R']; intros ? ? [X _]; apply steady_weaken; auto).
    destruct (C39_gradient_formula_partial OK h top s' e it n samples Hb R2 E Ln) as (g & s'' & Q1 & Q2 & Q3 & _); auto.
    - split; rewrite EB. apply (heap_symmetric F); auto. rewrite EV. intros v J. apply (vars_tree (r_h s)); auto. intros f. rewrite EH. apply with_weights_vars.
    - rewrite EB. apply (heap_positive F); auto.
    - unfold usable_set. rewrite EV. exact US.
    - exists s', g, s''. split; auto. split; auto. rewrite ET in *. split; auto. intros k c Hc. rewrite (Q3 k c Hc), EV, EB. f_equal.
      assert (X : forall x, features (r_h s') c x = features (r_h s) c x).
      { intros x. unfold features. apply sumL_ext. intros f _. unfold feature. rewrite EH. clear. revert ws. induction (tunable_clusters s) as [|c cs IH]; intros [|w ws]; simpl; auto. destruct (existsb _ c); auto. }
      f_equal. { unfold mean. f_equal. apply sumL_ext. intros y _. apply X. }
      { unfold expected, mass. f_equal; [|].
        all: apply sumL_ext; intros y _; rewrite ?X, ?(heap_weight F (r_h s') EH); auto. }
  Qed.
End P.
Print Assumptions C49_marginals_partial.
Print Assumptions C49_map_partial.
Print Assumptions C49_joint_partial.
Print Assumptions C49_observed_partial.
Print Assumptions C49_weights_effective.
Print Assumptions C49_marginals_after_partial.
Print Assumptions C49_gradient_after_partial.

(** {1 A history that respects [alert]} *)
Section Alertb.
  Context {N : num}.
  Notation rst := (rst (N:=N)).
  Notation rop := (rop (N:=N)).
  Definition answerableb (s : rst) (op : rop) : bool :=
    match op with
    | RGraph op => match query_threads op with Some n => (1 <=? n) && balancedb (r_h s) (contents s) && positiveb (weight_swapped (r_h s) (contents s)) (contents s) | None => true end
    | RGradient _ _ => balancedb (r_h s) (bare s) && positiveb (weight_swapped (r_h s) (bare s)) (bare s)
    | _ => true
    end.
  Lemma answerableb_ok s op : answerableb s op = true -> answerable s op.
  Proof.
    destruct op; simpl; auto.
    - intros Q. apply andb_true_iff in Q as [Q1 Q2]. split. apply balancedb_ok; auto. apply positiveb_ok; auto.
    - unfold sound_query. destruct (query_threads op); auto. intros Q. apply andb_true_iff in Q as [Q Q2]. apply andb_true_iff in Q as [Q0 Q1].
      split. apply Nat.leb_le; auto. split. apply balancedb_ok; auto. apply positiveb_ok; auto.
  Qed.
  Fixpoint ralert (ops : list rop) (s : rst) : bool :=
    match ops with
    | [] => true
    | op :: r => rokb op s && (steadyb s op && answerableb s op) && rdone (rcall env_id op s) && ralert r (rstep op s)
    end.
  Lemma rruns_alert h top ops : forall s, rreach h top alert s -> ralert ops s = true -> rreach h top alert (rruns s ops).
  Proof.
    induction ops as [|op ops IH]; intros s R SA; auto.
    cbn [ralert] in SA. apply andb_true_iff in SA as [SA SB]. apply andb_true_iff in SA as [SA S2]. apply andb_true_iff in SA as [S1 S3].
    apply rokb_ok in S1. apply andb_true_iff in S3 as [S3 S4]. apply (steadyb_ok True) in S3. apply answerableb_ok in S4.
    change (rreach h top alert (rruns (rstep op s) ops)). apply IH; auto.
    unfold rstep. destruct (rcall env_id op s) eqn:Q; try discriminate S2; simpl.
    - eapply RR_ret; eauto; [split; auto|apply env_id_ok].
    - eapply RR_thr; eauto; [split; auto|apply env_id_ok].
  Qed.
End Alertb.

(** A - C - D - E: a weight shared by A - C and C - D, constant factors on A and on
    D - E; queries, a gradient, evidence on E and changes of the weight *)
Definition field_tale : list (rop (N:=QcNum)) :=
  [RConst (Some 2); RTun (Some 0) None; RConst (Some 4); RTun (Some 1) (Some [exC; exA]); RGraph (OMarginal exC 1); RWeights [q 2 1];
   RGradient (mkTI [[0; 1; 1; 0]; [1; 1; 0; 0]] None) 2; RGraph (OMap exD 1); RWeights [q 1 2]; RGraph (OSet exE 1); RGraph (OMarginal exA 2)].
Notation field_state := (rruns (r_empty gH 6) field_tale).
Lemma field_reach : rreach gH 6 alert field_state.
Proof. apply rruns_alert. constructor. vm_compute. reflexivity. Qed.
Definition tunables_hiddenb {N : num} (s : rst (N:=N)) : bool := forallb (forallb (fun f => (length (f_vars (r_h s f)) =? 2) && on_hiddenb s f)) (tunable_clusters s).
Lemma tunables_hiddenb_ok {N : num} (s : rst (N:=N)) : tunables_hiddenb s = true -> tunables_hidden s.
Proof.
  unfold tunables_hiddenb. rewrite forallb_forall. intros Q c f Jc Jf. apply Q in Jc. rewrite forallb_forall in Jc. apply Jc, andb_true_iff in Jf as [J1 J2].
  split. apply Nat.eqb_eq; auto. apply on_hiddenb_ok; auto.
Qed.
Lemma field_nodup : NoDup (sp_vars (contents field_state)).
Proof. vm_compute. repeat (constructor; [simpl; intuition discriminate|]). constructor. Qed.
Lemma field_tree v : tree_around (r_h field_state) (contents field_state) v.
Proof. apply (forestb_ok (r_h field_state)). exact field_nodup. vm_compute. reflexivity. Qed.

(** the hypotheses of the theorems are met, and the marginal of C changes with the weight *)
Example C49_marginals_example : exists g, get_marginal (r_h field_state) env_rev exC 2 (r_g field_state) =
  Ret (map (marginal (weight (r_h field_state) (contents field_state)) (contents field_state) exC) (seq 0 2)) g.
Proof.
  apply (C49_marginals_partial QcNum_ok gH 6 field_state env_rev 2 exC); [exact gH_built|exact field_reach|exact env_rev_ok|exact (le_S _ _ (le_n 1))| | | |].
  - apply (symmetricb_ok QcNum_ok). vm_compute. reflexivity.
  - apply positiveb_ok. vm_compute. reflexivity.
  - apply hiddenb_ok. vm_compute. reflexivity.
  - apply field_tree.
Qed.
Notation field_new := (with_weights (r_h field_state) (tunable_clusters field_state) [q 3 1]).
Example C49_after_example : exists s' g, set_weights [q 3 1] field_state = Ret tt s' /\
  get_marginal (r_h s') env_rev exC 2 (r_g s') = Ret (map (marginal (weight field_new (contents field_state)) (contents field_state) exC) (seq 0 2)) g.
Proof.
  apply (C49_marginals_after_partial QcNum_ok gH 6 field_state [q 3 1] env_rev 2 exC); [exact gH_built|exact field_reach| | |exact env_rev_ok|exact (le_S _ _ (le_n 1))| | | |].
  - apply tunables_hiddenb_ok. vm_compute. reflexivity.
  - vm_compute. reflexivity.
  - apply (symmetricb_ok QcNum_ok). vm_compute. reflexivity.
  - apply positiveb_ok. vm_compute. reflexivity.
  - apply hiddenb_ok. vm_compute. reflexivity.
  - apply field_tree.
Qed.
Example C49_after_example_differs : neqb (marginal (weight field_new (contents field_state)) (contents field_state) exC 0)
  (marginal (weight (r_h field_state) (contents field_state)) (contents field_state) exC 0) = false.
Proof. vm_compute. reflexivity. Qed.
Example C49_gradient_after_example : exists s' g s'', set_weights [q 3 1] field_state = Ret tt s' /\
  weights_gradient env_rev (mkTI [[0; 1; 1; 0]; [1; 0; 0; 1]] None) 2 s' = Ret g s'' /\ length g = 1.
Proof.
  destruct (C49_gradient_after_partial QcNum_ok gH 6 field_state [q 3 1] env_rev (mkTI [[0; 1; 1; 0]; [1; 0; 0; 1]] None) 2 [[0; 1; 1; 0]; [1; 0; 0; 1]])
    as (s' & g & s'' & Q1 & Q2 & Q3 & _).
  - exact gH_built.
  - exact field_reach.
  - apply tunables_hiddenb_ok. vm_compute. reflexivity.
  - vm_compute. reflexivity.
  - exact env_rev_ok.
  - exact (le_S _ _ (le_n 1)).
  - apply (symmetricb_ok QcNum_ok). vm_compute. reflexivity.
  - intros v _. apply (forestb_ok (r_h field_state)). exact field_nodup. vm_compute. reflexivity.
  - apply positiveb_ok. vm_compute. reflexivity.
  - reflexivity.
  - apply usable_setb_ok. vm_compute. reflexivity.
  - exists s', g, s''. split; [exact Q1|split; [exact Q2|exact Q3]].
Qed.

(** {1 The statement of C49 does not hold for every random field} *)
(** a reachable random field, symmetric and without cycles, with a marginal that
    is not the one of its current weights *)
Definition wrong_marginal (s : rst (N:=QcNum)) : Prop :=
  exists h top e n v l g, (forall f, built (h f)) /\ rreach h top any s /\ env_ok e /\ 1 <= n /\
    symmetric (r_h s) (contents s) /\ positive (weight (r_h s) (contents s)) (contents s) /\
    hidden (contents s) v /\ tree_around (r_h s) (contents s) v /\
    get_marginal (r_h s) e v n (r_g s) = Ret l g /\
    l <> map (marginal (weight (r_h s) (contents s)) (contents s) v) (seq 0 (vsize v)).
Definition wrong_marginalb (s : rst (N:=QcNum)) (v : var) : bool :=
  symmetricb (r_h s) (contents s) && positiveb (weight (r_h s) (contents s)) (contents s) && hiddenb (contents s) v && forestb (r_h s) (contents s) &&
  let o := get_marginal (r_h s) env_id v 1 (r_g s) in
  returned o && negb (answers o (map (marginal (weight (r_h s) (contents s)) (contents s) v) (seq 0 (vsize v)))).
Lemma wrong_marginal_intro ops v : rsane ops (r_empty gH 6) = true -> wrong_marginalb (rruns (r_empty gH 6) ops) v = true ->
  NoDup (sp_vars (contents (rruns (r_empty gH 6) ops))) -> wrong_marginal (rruns (r_empty gH 6) ops).
Proof.
  intros SA Q ND. assert (R : rreach gH 6 any (rruns (r_empty gH 6) ops)) by (apply rruns_reach; [exact (fun _ _ => Logic.I)|constructor|exact SA]).
  set (s := rruns (r_empty gH 6) ops) in *. clearbody s. unfold wrong_marginalb in Q. cbv zeta in Q. apply andb_true_iff in Q as [Q X].
  apply andb_true_iff in X as [X1 X2]. apply negb_true_iff in X2. repeat (apply andb_true_iff in Q as [Q ?]).
  destruct (answers_different _ _ X1 X2) as (l & g & E1 & E2).
  exists gH, 6, env_id, 1, v, l, g. split; [exact gH_built|]. split; [exact R|]. split; [exact env_id_ok|]. split; [exact (le_n 1)|].
  split; [apply (symmetricb_ok QcNum_ok); auto|]. split; [apply positiveb_ok; auto|]. split; [apply hiddenb_ok; auto|].
  split; [apply (forestb_ok (r_h s)); auto|]. split; auto.
Qed.

(** a tunable factor on one variable: a query, then [setWeights], then the same
    query, which answers with the old weight *)
Theorem C49_single_variable_refuted : wrong_marginal (rruns (r_empty gH 6) [RTun (Some 3) None; RGraph (OMarginal exD 1); RWeights [q 5 1]]).
Proof. apply wrong_marginal_intro with (v := exD); vm_compute; try reflexivity. repeat (constructor; [simpl; intuition discriminate|]). constructor. Qed.
(** a tunable factor between a hidden and an observed variable: evidence, then
    [setWeights]; the first query answers with the old weight *)
Theorem C49_observed_refuted : wrong_marginal (rruns (r_empty gH 6) [RTun (Some 0) None; RGraph (OSet exA 1); RWeights [q 5 1]]).
Proof. apply wrong_marginal_intro with (v := exC); vm_compute; try reflexivity. repeat (constructor; [simpl; intuition discriminate|]). constructor. Qed.
(** a factor between a hidden and an observed variable inserted with the weight of
    another one: the first query uses the weight it had before *)
Theorem C49_shared_insertion_refuted : wrong_marginal (rruns (r_empty gH 6) [RTun (Some 0) None; RConst (Some 4); RGraph (OSet exD 1); RTun (Some 1) (Some [exA; exC])]).
Proof. apply wrong_marginal_intro with (v := exC); vm_compute; try reflexivity. repeat (constructor; [simpl; intuition discriminate|]). constructor. Qed.
Print Assumptions C49_single_variable_refuted.
Print Assumptions C49_observed_refuted.
Print Assumptions C49_shared_insertion_refuted.
