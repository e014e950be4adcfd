(** Property C46: copies of models.

    A copy is made by [absorb] on an empty model: the copy constructors
    ([copy = false]: the factors are shared) and the [absorb] of a model that
    wants its own factors ([copy = true]). The source is any random field reached
    with calls that respect [careful] (Coherent.v); graphs without tunable factors
    are among them. The copy starts as [r_empty (r_h src) (r_top src)]: nothing in
    it, and the objects that exist are those of the source. *)
From Coq Require Import String List Arith Bool Lia Permutation Relations QArith Qcanon.
From Verif Require Import Res Num Categoric Combs Func FuncProofs GroupProofs FactorProofs FactorApi Special SpecialProofs
  Graph GraphLemmas Clusters Belief Query GraphInv EvidInv BeliefInv BigOp Tree Cycle BPStep BPRun GraphSpec Hist P_Graph BeliefSpec Sums Exact BeliefHist Queries
  Rebuild P_Belief Parts JointSpec Joint P_Joint Train TrainHist Coherent TrainSpec Gradient TrainInv GradientRun P_Categoric P_Factor Demo BeliefDemo TrainDemo P_Train
  P_Gradient P_GradientDemo GibbsChain FieldHist P_Field CRFHist Plan CopyProofs.
Import ListNotations.
Open Scope nat_scope.
Notation hidden := BeliefSpec.hidden.

(** {1 Specification} *)
Section Spec.
  Context {N : num}.
  Notation rst := (rst (N:=N)).

  (** the factor [k] of the second heap has the variables and the values of the
      factor [f] of the first *)
  Definition stands_for (F F' : nat -> func N) (f k : nat) : Prop :=
    f_vars (F' k) = f_vars (F f) /\ forall c, valid_comb (fsizes (F f)) c -> fval (F' k) c = fval (F f) c.
  (** the same for the weight and the values before the exponential *)
  Definition tuned_as (F F' : nat -> func N) (f k : nat) : Prop :=
    stands_for F F' f k /\ f_exp (F' k) = f_exp (F f) /\ forall c, valid_comb (fsizes (F f)) c -> fimg (F' k) c = fimg (F f) c.
  (** the same variables, the same evidences, and factors that stand for those of
      the source, each once *)
  Definition same_content (src s : rst) : Prop :=
    Permutation (g_vars (r_g src)) (g_vars (r_g s)) /\
    (forall v k, evidence (r_g s) v k <-> evidence (r_g src) v k) /\
    exists l, Permutation (g_all (r_g src)) l /\ Forall2 (stands_for (r_h src) (r_h s)) l (g_all (r_g s)).

  (** every variable of the model belongs to a factor *)
  Definition no_lone_variable (s : rst) : Prop :=
    forall v, In v (g_vars (r_g s)) -> exists f, In f (g_all (r_g s)) /\ In v (f_vars (r_h s f)).
  (** every factor is listed by [getConstFactors] or by [getTunableClusters] *)
  Definition all_listed (s : rst) : Prop :=
    forall f, In f (g_all (r_g s)) -> In f (r_const s) \/ exists c, In c (tunable_clusters s) /\ In f c.
  (** the first factor of a cluster of many has no factor on the same variables
      in the clusters before *)
  Definition clear_sharing (s : rst) : Prop :=
    forall i j ci cj f f', i < j -> nth_error (tunable_clusters s) i = Some ci -> nth_error (tunable_clusters s) j = Some (f :: f' :: cj) ->
      forall g, In g ci -> ~ Permutation (f_vars (r_h s g)) (f_vars (r_h s f)).
End Spec.

Section P.
  Context {N : num} (OK : num_ok N).
  Notation rst := (rst (N:=N)).
  Notation rop := (rop (N:=N)).
  Implicit Types s src : rst.

  Lemma clear_unambiguous src : rinv src -> clear_sharing src -> unambiguous src.
  Proof.
    intros RI CL old f r rest E NE c g Jc Jg. destruct (vset_eqb (g_set (f_group (r_h src g))) (g_set (f_group (r_h src f)))) eqn:Q; auto. exfalso.
    destruct r as [|f' r]; [congruence|]. apply In_nth_error in Jc as (i & Hi).
    assert (Li : i < length old) by (apply nth_error_Some; congruence).
    apply (CL i (length old) c r f f' Li) with (g := g); auto.
    - rewrite E, nth_error_app1; auto.
    - rewrite E, nth_error_app2, Nat.sub_diag by lia. reflexivity.
    - destruct (built_set_soup (r_h src g) (ri_built _ RI g)) as [Pg Ng]. destruct (built_set_soup (r_h src f) (ri_built _ RI f)) as [Pf Nf].
      rewrite <- Pg, <- Pf. apply vset_eqb_perm; auto.
  Qed.
  Lemma twin_stands src copy s f k : twin src copy s f k -> stands_for (r_h src) (r_h s) f k.
  Proof. intros (E & V & _). split; auto. unfold f_vars. rewrite E. auto. Qed.
  Lemma ttwin_tuned src copy s f k : ttwin src copy s f k -> tuned_as (r_h src) (r_h s) f k.
  Proof. intros (T & E). split; auto. eapply twin_stands; eauto. Qed.

  Lemma ev_evidence P s v k : coh P s -> In v (g_vars (r_g s)) -> (evidence (r_g s) v k <-> sp_evidence (contents s) v = Some k).
  Proof.
    intros C J. apply In_nth_error in J as (a & V). pose proof (ch_inv _ _ C) as [X _].
    rewrite (evidence_at (r_h s) (r_g s) _ a v k X V). rewrite (ab_ev _ _ (coh_abs P s C) a v V). reflexivity.
  Qed.
  Lemma copied_same P src copy done s : coh P src -> copied src copy done s -> same_content src s.
  Proof.
    intros CS CY. pose proof (ch_inv _ _ CS) as [X _]. pose proof (ch_inv _ _ (cy_coh _ _ _ _ CY)) as [X' _].
    assert (PV : Permutation (g_vars (r_g src)) (g_vars (r_g s))).
    { apply NoDup_Permutation. eapply NoDup_map_inv. apply (co_vars _ _ _ X). eapply NoDup_map_inv. apply (co_vars _ _ _ X').
      intros v. symmetry. apply (cy_vars _ _ _ _ CY). }
    split; auto. split.
    - intros v k. split; intros Ev.
      + assert (J : In v (g_vars (r_g s))) by (destruct Ev as (a & V & _); eapply nth_error_In; eauto). pose proof (proj1 (cy_vars _ _ _ _ CY v) J) as J'.
        apply (ev_evidence P src v k CS J'). rewrite <- (cy_ev _ _ _ _ CY v J'). apply (ev_evidence True s v k (cy_coh _ _ _ _ CY) J). auto.
      + assert (J' : In v (g_vars (r_g src))) by (destruct Ev as (a & V & _); eapply nth_error_In; eauto). pose proof (proj2 (cy_vars _ _ _ _ CY v) J') as J.
        apply (ev_evidence True s v k (cy_coh _ _ _ _ CY) J). rewrite (cy_ev _ _ _ _ CY v J'). apply (ev_evidence P src v k CS J'). auto.
    - destruct (cy_facs _ _ _ _ CY) as [Pd F]. exists done. split. symmetry; auto. eapply F2_mono; [|exact F]. intros f k _ _. apply twin_stands.
  Qed.

  Lemma cluster_weights src copy s : rinv src -> rinv s -> clustered src copy s (tunable_clusters src) -> get_weights s = get_weights src.
  Proof.
    intros RS R CL. destruct (get_weights_ok src RS) as (ws & E & L & Q). destruct (get_weights_ok s R) as (ws' & E' & L' & Q'). rewrite E, E'. f_equal.
    assert (LC : length (tunable_clusters src) = length (tunable_clusters s)).
    { unfold clustered in CL. clear - CL. induction CL; simpl; auto. }
    apply nth_error_ext'. intros k. destruct (nth_error ws' k) as [w'|] eqn:W'; destruct (nth_error ws k) as [w|] eqn:W; auto.
    - assert (Lk : k < length (tunable_clusters src)) by (rewrite <- L; apply nth_error_Some; congruence).
      destruct (nth_error (tunable_clusters src) k) as [c|] eqn:C; [|apply nth_error_None in C; lia].
      destruct (nth_error (tunable_clusters s) k) as [c'|] eqn:C'; [|apply nth_error_None in C'; lia].
      assert (F : Forall2 (ttwin src copy s) c c').
      { clear - CL C C'. unfold clustered in CL. revert k C C'. induction CL; intros [|k] C C'; simpl in *; try discriminate; [congruence|eauto]. }
      pose proof (ri_ne _ RS c (nth_error_In _ _ C)) as NE. destruct F as [|f k' c c' (_ & X & _) F]; [congruence|].
      rewrite (Q k _ w C W f (or_introl eq_refl)) in X. rewrite (Q' k _ w' C' W' k' (or_introl eq_refl)) in X. congruence.
    - apply nth_error_None in W. assert (k < length ws') by (apply nth_error_Some; congruence). lia.
    - apply nth_error_None in W'. assert (k < length ws) by (apply nth_error_Some; congruence). lia.
  Qed.

  (** {1 The copy} *)

  (** The copy of a random field in which no variable is without factors, every
      factor is listed and the sharing is clear: it has the same contents, the same
      clusters and weights; the objects of the source are left as they were, and
      are those of the copy ([copy = false]) or not ([copy = true]); and it is a
      random field as any other, so that the theorems on the reached states apply
      to it. *)
  Theorem C46_field_partial : forall h top src e copy, (forall f, built (h f)) -> rreach h top (careful False) src -> env_ok e ->
    no_lone_variable src -> all_listed src -> clear_sharing src ->
    exists s, rf_absorb e src copy (r_empty (r_h src) (r_top src)) = Ret tt s /\
      same_content src s /\
      Forall2 (Forall2 (tuned_as (r_h src) (r_h s))) (tunable_clusters src) (tunable_clusters s) /\
      get_weights s = get_weights src /\
      (forall f, f < r_top src -> r_h s f = r_h src f) /\
      (forall f, In f (g_all (r_g src)) -> f < r_top src) /\
      (forall k, In k (g_all (r_g s)) -> if copy then r_top src <= k else In k (g_all (r_g src))) /\
      rreach (r_h src) (r_top src) alert s.
  Proof.
    intros h top src e copy Hb R E NL AL CL. pose proof (rreach_coh False h top src Hb R) as CS. pose proof (ch_r _ _ CS) as RS.
    destruct (field_copy False src CS copy e E NL) as (s & done & Q & CY & CC).
    - intros f J. apply in_or_app. destruct (AL f J) as [J'|(c & Jc & Jf)]; auto. right. apply in_concat. eauto.
    - apply clear_unambiguous; auto.
    - exists s. split; auto. split. { eapply copied_same; eauto. } split.
      { eapply F2_mono; [|exact CC]. intros c d _ _ F. eapply F2_mono; [|exact F]. intros f k _ _. apply ttwin_tuned. }
      split. { eapply cluster_weights; eauto. apply (ch_r _ _ (cy_coh _ _ _ _ CY)). }
      split. { apply (cy_heap _ _ _ _ CY). } split. { apply (ri_top _ RS). } split; [|apply (cy_reach _ _ _ _ CY)].
      intros k Jk. destruct (cy_facs _ _ _ _ CY) as [Pd F]. apply (F2_in_r _ _ _ F) in Jk as (f & Jf & (_ & _ & X)).
      unfold mark in X. destruct copy; auto. subst. eapply Permutation_in; eauto.
  Qed.

  (** The same for a copy as a graph: all the factors are constant ones. *)
  Theorem C46_graph_partial : forall h top src e copy, (forall f, built (h f)) -> rreach h top (careful False) src -> env_ok e ->
    no_lone_variable src ->
    exists s, graph_absorb e src copy (r_empty (r_h src) (r_top src)) = Ret tt s /\
      same_content src s /\ tunable_clusters s = [] /\
      (forall f, f < r_top src -> r_h s f = r_h src f) /\
      (forall f, In f (g_all (r_g src)) -> f < r_top src) /\
      (forall k, In k (g_all (r_g s)) -> if copy then r_top src <= k else In k (g_all (r_g src))) /\
      rreach (r_h src) (r_top src) alert s.
  Proof.
    intros h top src e copy Hb R E NL. pose proof (rreach_coh False h top src Hb R) as CS. pose proof (ch_r _ _ CS) as RS.
    destruct (graph_copy False src CS copy e E NL) as (s & done & Q & CY & CC).
    exists s. split; auto. split. { eapply copied_same; eauto. } split; auto.
    split. { apply (cy_heap _ _ _ _ CY). } split. { apply (ri_top _ RS). } split; [|apply (cy_reach _ _ _ _ CY)].
    intros k Jk. destruct (cy_facs _ _ _ _ CY) as [Pd F]. apply (F2_in_r _ _ _ F) in Jk as (f & Jf & (_ & _ & X)).
    unfold mark in X. destruct copy; auto. subst. eapply Permutation_in; eauto.
  Qed.

  (** {1 The same distribution} *)
  Section Same.
    Variables (F F' : nat -> func N) (A A' : spec) (l : list nat).
    Hypothesis GF : goods F.
    Hypothesis ND : NoDup (sp_vars A).
    Hypothesis FV : forall f, In f (sp_facs A) -> incl (f_vars (F f)) (sp_vars A).
    Hypothesis PV : Permutation (sp_vars A) (sp_vars A').
    Hypothesis EV : forall v, In v (sp_vars A) -> sp_evidence A' v = sp_evidence A v.
    Hypothesis PL : Permutation (sp_facs A) l.
    Hypothesis TW : Forall2 (stands_for F F') l (sp_facs A').

    Lemma in_range f (x : asg) : (forall v, In v (sp_vars A) -> val x v < vsize v) -> In f (sp_facs A) -> valid_comb (fsizes (F f)) (map (val x) (f_vars (F f))).
    Proof.
      intros R J. unfold fsizes, sizes_of. change (g_soup (f_group (F f))) with (f_vars (F f)). pose proof (FV f J) as I.
      induction (f_vars (F f)) as [|v vs IH]; simpl; constructor. apply R, I; simpl; auto. apply IH. intros w Jw. apply I; simpl; auto.
    Qed.
    Lemma twins_weight x : (forall v, In v (sp_vars A) -> val x v < vsize v) -> weight F' A' x = weight F A x.
    Proof.
      intros R. unfold weight. rewrite (prodL_perm OK _ _ _ PL).
      assert (I : forall f, In f l -> In f (sp_facs A)) by (intros f J; eapply Permutation_in; [symmetry; exact PL|exact J]).
      clear PL. induction TW as [|f k l0 ks [E V] T IH]; simpl; auto. rewrite IH by (auto; intros; apply I; simpl; auto). f_equal. rewrite E.
      apply V. apply in_range; auto. apply I; simpl; auto.
    Qed.
    Lemma twins_agrees x : agrees A' x = agrees A x.
    Proof.
      unfold agrees. apply eq_true_iff_eq. rewrite !forallb_forall. split; intros Q v J.
      - rewrite <- EV by auto. apply Q. eapply Permutation_in; eauto.
      - assert (J' : In v (sp_vars A)) by (eapply Permutation_in; [symmetry; exact PV|exact J]). rewrite EV by auto. auto.
    Qed.
    Lemma weight_val x y : (forall v, In v (sp_vars A) -> val x v = val y v) -> weight F A x = weight F A y.
    Proof. intros Q. unfold weight. apply prodL_ext. intros f J. f_equal. apply map_ext_in. intros v Jv. apply Q. apply (FV f J); auto. Qed.
    Lemma weight_nn x : (forall v, In v (sp_vars A) -> val x v < vsize v) -> (n0 <= weight F A x)%num.
    Proof. intros R. apply (prodL_nonneg OK). intros f J. apply (fval_nonneg OK); auto. apply in_range; auto. Qed.

    Lemma twins_mass P : (forall x y, (forall v, In v (sp_vars A) -> val x v = val y v) -> P x = P y) ->
      mass (weight F' A') A' P = mass (weight F A) A P.
    Proof.
      intros PX. rewrite <- !total_sum. unfold total. rewrite (all_asg_perm OK SUM _ _ PV ND (fun x => if agrees A x && P x then weight F A x else n0)).
      - apply bigL_ext. intros x J. rewrite twins_agrees, twins_weight; auto. intros v Jv. apply (asg_val_range (sp_vars A')); auto.
        eapply Permutation_NoDup; eauto. eapply Permutation_in; eauto.
      - intros x y Q. rewrite (agrees_val A x y Q), (weight_val x y Q), (PX x y Q). auto.
      - intros x R. destruct (_ && _). apply weight_nn; auto. apply (nle_refl OK).
    Qed.
    Lemma twins_marginal v j : In v (sp_vars A) -> marginal (weight F' A') A' v j = marginal (weight F A) A v j.
    Proof. intros J. unfold marginal. rewrite !twins_mass; auto. intros x y Q. unfold takes. rewrite Q; auto. Qed.
    Lemma twins_hidden v : hidden A' v <-> hidden A v.
    Proof.
      unfold hidden. split; intros [J Q].
      - assert (J' : In v (sp_vars A)) by (eapply Permutation_in; [symmetry; exact PV|exact J]). rewrite EV in Q by auto. auto.
      - split. eapply Permutation_in; eauto. rewrite EV; auto.
    Qed.
    Lemma twins_joins k v w : joins F' A' k v w -> exists f, joins F A f v w /\ stands_for F F' f k.
    Proof.
      intros [J X]. apply (F2_in_r _ _ _ TW) in J as (f & Jf & [E V]). exists f. split; [|split; auto].
      split. eapply Permutation_in; [symmetry; exact PL|exact Jf]. unfold fv in *. rewrite E in X. auto.
    Qed.
    Lemma twins_symmetric : symmetric F A -> symmetric F' A'.
    Proof.
      intros SY k v w J Hv Hw. apply twins_joins in J as (f & Jf & [E V]). apply twins_hidden in Hv. apply twins_hidden in Hw.
      destruct (SY f v w Jf Hv Hw) as [Es X]. split; auto. intros i j Li Lj.
      assert (VC : forall a b, a < vsize v -> b < vsize v -> valid_comb (fsizes (F f)) [a; b]).
      { intros a b La Lb. unfold fsizes, sizes_of. change (g_soup (f_group (F f))) with (fv F f). destruct Jf as [_ [->| ->]]; simpl; repeat constructor; lia. }
      rewrite !V by auto. auto.
    Qed.
    Lemma twins_edge v w : hidden_edge F' A' v w -> hidden_edge F A v w.
    Proof.
      intros (Hv & Hw & k & J). split; [apply twins_hidden; exact Hv|split; [apply twins_hidden; exact Hw|]].
      apply twins_joins in J as (f & J & _). exists f. exact J.
    Qed.
    Lemma twins_tree v : tree_around F A v -> tree_around F' A' v.
    Proof.
      intros T (c & (R1 & R2 & R3) & L). apply T. exists c. split.
      - split; auto. split; auto. intros. eapply twins_edge; eauto.
      - intros w J. specialize (L w J). clear - L EV PV PL TW. induction L as [a b Q|a|a b c _ I1 _ I2].
        + apply rt_step. apply twins_edge; auto.
        + apply rt_refl.
        + eapply rt_trans; eauto.
    Qed.
    Lemma twins_positive : positive (weight F A) A -> positive (weight F' A') A'.
    Proof.
      intros (x & (I & Ag) & Pw).
      assert (VX : forall v, In v (sp_vars A) -> val (canon (sp_vars A') x) v = val x v) by (intros v Iv; apply canon_val; eapply Permutation_in; eauto).
      assert (RX : forall v, In v (sp_vars A) -> val x v < vsize v) by (intros; eapply asg_val_range; eauto).
      exists (canon (sp_vars A') x). split; [split|].
      - apply canon_In. intros v Iv. apply RX. eapply Permutation_in; [symmetry; exact PV|exact Iv].
      - rewrite twins_agrees, (agrees_val A _ x); auto.
      - rewrite twins_weight. rewrite (weight_val _ x); auto. intros v Jv. rewrite VX; auto.
    Qed.
    Lemma twins_floor : above_floor F A -> above_floor F' A'.
    Proof.
      intros B k v w J X Hv Hw i j Li Lj. apply twins_hidden in Hv. apply twins_hidden in Hw. apply (F2_in_r _ _ _ TW) in J as (f & Jf & [E V]).
      assert (Jf' : In f (sp_facs A)) by (eapply Permutation_in; [symmetry; exact PL|exact Jf]).
      unfold fv in X. rewrite E in X. rewrite V. eapply B; eauto. unfold fsizes, sizes_of. change (g_soup (f_group (F f))) with (f_vars (F f)). rewrite X. simpl. repeat constructor; auto.
    Qed.
  End Same.

  Lemma content_parts P P' src s : coh P src -> coh P' s -> same_content src s ->
    (goods (r_h src)) /\ NoDup (sp_vars (contents src)) /\
    (forall f, In f (sp_facs (contents src)) -> incl (f_vars (r_h src f)) (sp_vars (contents src))) /\
    Permutation (sp_vars (contents src)) (sp_vars (contents s)) /\
    (forall v, In v (sp_vars (contents src)) -> sp_evidence (contents s) v = sp_evidence (contents src) v) /\
    exists l, Permutation (sp_facs (contents src)) l /\ Forall2 (stands_for (r_h src) (r_h s)) l (sp_facs (contents s)).
  Proof.
    intros CS C (PV & EV & T). split. apply (coh_good OK P); auto. pose proof (ch_inv _ _ CS) as [X _].
    split. { eapply NoDup_map_inv. apply (co_vars _ _ _ X). } split. { intros f J v Jv. apply (src_vars_in P src CS f v); auto. }
    split; auto. split; auto. intros v J. change (In v (g_vars (r_g src))) in J.
    assert (J' : In v (g_vars (r_g s))) by (eapply Permutation_in; eauto).
    pose proof (fun k => ev_evidence P src v k CS J) as Q. pose proof (fun k => ev_evidence P' s v k C J') as Q'.
    destruct (sp_evidence (contents src) v) as [k|] eqn:E.
    - apply Q', EV, Q. auto.
    - destruct (sp_evidence (contents s) v) as [k|] eqn:E'; auto. assert (W : None = Some k); [|discriminate]. apply Q, EV, Q'. auto.
  Qed.

  (** Two models with the same contents have the same distribution: the same sum
      of the products of the factors over the assignments that agree with the
      evidences, for every set of assignments. *)
  Theorem C46_distribution : forall h top h' top' src s, (forall f, built (h f)) -> (forall f, built (h' f)) ->
    rreach h top (careful False) src -> rreach h' top' (careful False) s -> same_content src s ->
    (forall P, (forall x y, (forall v, In v (sp_vars (contents src)) -> val x v = val y v) -> P x = P y) ->
       mass (weight (r_h s) (contents s)) (contents s) P = mass (weight (r_h src) (contents src)) (contents src) P) /\
    (forall v j, In v (sp_vars (contents src)) ->
       marginal (weight (r_h s) (contents s)) (contents s) v j = marginal (weight (r_h src) (contents src)) (contents src) v j).
  Proof.
    intros h top h' top' src s Hb Hb' R R' SC. pose proof (rreach_coh False h top src Hb R) as CS. pose proof (rreach_coh False h' top' s Hb' R') as C.
    destruct (content_parts _ _ _ _ CS C SC) as (G & ND & FV & PV & EV & l & PL & TW). split.
    - intros P PX. eapply twins_mass; eauto.
    - intros v j J. eapply twins_marginal; eauto.
  Qed.

  (** The copy of a tree model of symmetric factors answers with the marginals of
      the source. *)
  Theorem C46_answers_partial : forall h top src e copy e' n v, (forall f, built (h f)) -> rreach h top (careful False) src -> env_ok e -> env_ok e' -> 1 <= n ->
    no_lone_variable src -> all_listed src -> clear_sharing src ->
    symmetric (r_h src) (contents src) -> positive (weight (r_h src) (contents src)) (contents src) ->
    hidden (contents src) v -> tree_around (r_h src) (contents src) v ->
    exists s g, rf_absorb e src copy (r_empty (r_h src) (r_top src)) = Ret tt s /\
      get_marginal (r_h s) e' v n (r_g s) = Ret (map (marginal (weight (r_h src) (contents src)) (contents src) v) (seq 0 (vsize v))) g.
  Proof.
    intros h top src e copy e' n v Hb R E E' L NL AL CL SY PO Hv T. pose proof (rreach_coh False h top src Hb R) as CS.
    destruct (C46_field_partial h top src e copy Hb R E NL AL CL) as (s & Q & SC & _ & _ & _ & _ & _ & RA).
    pose proof (ri_built _ (ch_r _ _ CS)) as HB'. pose proof (fl_coh _ _ (proj1 (rreach_current OK _ _ s HB' RA))) as C.
    destruct (content_parts _ _ _ _ CS C SC) as (G & ND & FV & PV & EV & l & PL & TW).
    destruct (C49_marginals_partial OK (r_h src) (r_top src) s e' n v HB' RA E' L) as (g & Qg).
    - eapply twins_symmetric; eauto.
    - eapply twins_positive; eauto.
    - eapply twins_hidden; eauto.
    - eapply twins_tree; eauto.
    - exists s, g. split; auto. rewrite Qg. f_equal. apply map_ext. intros j. eapply twins_marginal; eauto. apply Hv.
  Qed.

  (** {1 Independence} *)

  (** the calls that change weights and evidences, and the queries *)
  Definition tuning (op : rop) : Prop :=
    match op with RWeights _ | ROnes | RGradient _ _ | RGraph _ => True | _ => False end.
  (** the states after any sequence of such calls, whatever they answer *)
  Inductive later s : rst -> Prop :=
  | LT_start : later s s
  | LT_ret t e op a t' : later s t -> tuning op -> rok op t -> rcall e op t = Ret a t' -> later s t'
  | LT_thr t e op t' : later s t -> tuning op -> rok op t -> rcall e op t = Thr t' -> later s t'.
  (** the source after the copy has been made: the same model, among more objects *)
  Definition beside src s : rst := mkR (r_h s) (r_top s) (r_g src) (r_const src) (r_tun src) (r_tuners src).

  Definition okeep {B} s (o : out rst B) : Prop := match o with Ret _ t | Thr t => r_h t = r_h s /\ r_tuners t = r_tuners s | _ => True end.
  Lemma okeep_bind {B D} s (o : out rst B) (f : B -> rst -> out rst D) :
    okeep s o -> (forall b t, r_h t = r_h s -> r_tuners t = r_tuners s -> okeep s (f b t)) -> okeep s (obind o f).
  Proof. destruct o; simpl; auto. intros [A1 A2] F. auto. Qed.
  Lemma okeep_g {B} s t (m : gst -> out gst B) : r_h t = r_h s -> r_tuners t = r_tuners s -> okeep s (on_g m t).
  Proof. intros E1 E2. unfold on_g. destruct (m (r_g t)); simpl; auto. Qed.
  Lemma okeep_lift {B} s t (r : res B) : r_h t = r_h s -> r_tuners t = r_tuners s -> okeep s (lift r t).
  Proof. intros E1 E2. destruct r; simpl; auto. Qed.
  Lemma okeep_map {B} s (f : B -> answer) o : okeep s o -> okeep s (rmapo f o).
  Proof. destruct o; simpl; auto. Qed.
  Lemma gradient_keeps s e it : okeep s (rf_gradient e it s).
  Proof.
    unfold rf_gradient. apply okeep_bind. { destruct (existsb _ _); simpl; auto. apply okeep_g; auto. }
    intros _ t E1 E2. apply okeep_bind. { apply okeep_g; auto. } intros _ u E1' E2'. destruct (g_pool (r_g u)); simpl; auto. apply okeep_lift; auto.
  Qed.
  Lemma weights_frame s ws t : rinv s -> (exists a, runit (set_weights ws s) = Ret a t) \/ runit (set_weights ws s) = Thr t ->
    tunable_clusters t = tunable_clusters s /\ forall f, ~ In f (concat (tunable_clusters s)) -> r_h t f = r_h s f.
  Proof.
    intros I Q. destruct (Nat.eq_dec (length ws) (length (r_tuners s))) as [L|L].
    - destruct (set_weights_ok s ws I L) as (h' & E & _ & P2). unfold runit, rmapo in Q. rewrite E in Q. destruct Q as [[a Q]|Q]; [|discriminate].
      injection Q as _ <-. split; auto.
    - unfold runit, rmapo, set_weights in Q. apply Nat.eqb_neq in L. rewrite L in Q. destruct Q as [[a Q]|Q]; [discriminate|]. injection Q as <-. auto.
  Qed.
  Lemma tuning_frame s e op t : rinv s -> tuning op -> (exists a, rcall e op s = Ret a t) \/ rcall e op s = Thr t ->
    tunable_clusters t = tunable_clusters s /\ forall f, ~ In f (concat (tunable_clusters s)) -> r_h t f = r_h s f.
  Proof.
    intros I TU Q.
    assert (K : okeep s (rcall e op s) -> tunable_clusters t = tunable_clusters s /\ forall f, ~ In f (concat (tunable_clusters s)) -> r_h t f = r_h s f).
    { intros K. assert (r_h t = r_h s /\ r_tuners t = r_tuners s) as [E1 E2].
      { destruct Q as [[a Q]|Q]; rewrite Q in K; exact K. }
      unfold tunable_clusters. rewrite E1, E2. auto. }
    destruct op; simpl in TU; try contradiction; cbn [rcall] in *.
    - eapply weights_frame; eauto.
    - destruct (get_weights_ok s I) as (ws & E & _). unfold set_all_ones in Q. rewrite E in Q. cbn [lift obind] in Q. eapply weights_frame; eauto.
    - apply K. apply okeep_map. unfold weights_gradient, scoped. apply okeep_bind. apply okeep_g; auto.
      intros _ u E1 E2. pose proof (gradient_keeps u e it) as X. destruct (rf_gradient e it u); simpl in *; auto; rewrite <- E1, <- E2; auto.
    - apply K. apply okeep_g; auto.
  Qed.
  Lemma later_frame s t : rinv s -> later s t -> rinv t /\ tunable_clusters t = tunable_clusters s /\ forall f, ~ In f (concat (tunable_clusters s)) -> r_h t f = r_h s f.
  Proof.
    intros I L. induction L as [|t e op a t' L (IT & EC & EF) TU OP Q|t e op t' L (IT & EC & EF) TU OP Q]; auto.
    - pose proof (rcall_step e op t IT OP) as ST. rewrite Q in ST. destruct (tuning_frame t e op t' IT TU) as [C1 C2]; eauto.
      split; [apply ST|split; [congruence|]]. intros f NI. rewrite C2 by congruence. auto.
    - pose proof (rcall_step e op t IT OP) as ST. rewrite Q in ST. destruct (tuning_frame t e op t' IT TU) as [C1 C2]; auto.
      split; [apply ST|split; [congruence|]]. intros f NI. rewrite C2 by congruence. auto.
  Qed.

  (** After a copy with its own factors, no sequence of changes of weights and
      evidences, gradients and queries done on the copy changes a factor of the
      source, and none done on the source changes a factor of the copy. *)
  Theorem C46_independent : forall h top src e s, (forall f, built (h f)) -> rreach h top (careful False) src -> env_ok e ->
    no_lone_variable src -> all_listed src -> clear_sharing src ->
    rf_absorb e src true (r_empty (r_h src) (r_top src)) = Ret tt s ->
    (forall t, later s t -> forall f, In f (g_all (r_g src)) -> r_h t f = r_h src f) /\
    (forall t, later (beside src s) t -> forall k, In k (g_all (r_g s)) -> r_h t k = r_h s k).
  Proof.
    intros h top src e s Hb R E NL AL CL Q. pose proof (rreach_coh False h top src Hb R) as CS. pose proof (ch_r _ _ CS) as RS.
    destruct (C46_field_partial h top src e true Hb R E NL AL CL) as (s' & Q' & _ & _ & _ & HH & _ & AB & RA). rewrite Q in Q'. injection Q' as <-.
    pose proof (rreach_inv _ _ _ s (ri_built _ RS) RA) as I. split.
    - intros t L f J. apply (ri_top _ RS) in J. rewrite <- (HH f J). apply (later_frame s t I L).
      intros J'. apply (ri_tun _ I) in J'. assert (J2 : In f (r_const s ++ r_tun s)) by (apply in_or_app; auto). apply (ri_in _ I), AB in J2. lia.
    - assert (IB : rinv (beside src s)).
      { assert (CT : forall c f, In c (tunable_clusters src) -> In f c -> f < r_top src).
        { intros c f Jc Jf. apply (ri_top _ RS), (ri_in _ RS). apply in_or_app. right. apply (ri_tun _ RS). apply in_concat. eauto. }
        assert (HW : forall f, f < r_top src -> weight_of (beside src s) f = weight_of src f).
        { intros f Lf. unfold weight_of, beside. cbn [r_h]. rewrite HH; auto. }
        assert (TL : r_top src <= r_top s).
        { clear - RA RS. assert (X : forall s0, rreach (r_h src) (r_top src) alert s0 -> rinv (r_empty (r_h src) (r_top src)) -> rinv s0 /\ r_top src <= r_top s0).
          { intros s0 R0 I0. induction R0 as [|s0 e op a s1 R0 [IH1 IH2] OP _ _ Q|s0 e op s1 R0 [IH1 IH2] OP _ _ Q]; auto.
            - pose proof (rcall_step e op s0 IH1 OP) as ST. rewrite Q in ST. destruct ST as [? RL]. pose proof (rl_top _ _ RL). split; auto. lia.
            - pose proof (rcall_step e op s0 IH1 OP) as ST. rewrite Q in ST. destruct ST as [? RL]. pose proof (rl_top _ _ RL). split; auto. lia. }
          apply X; auto. apply rinv_empty. apply RS. }
        constructor; try apply RS.
        - apply I.
        - intros f J. apply (ri_top _ RS) in J. cbn [beside r_top]. lia.
        - intros f J. rewrite HW. apply (ri_exp _ RS); auto. apply in_concat in J as (c & Jc & Jf). eapply CT; eauto.
        - intros c f f' Jc Jf Jf'. rewrite !HW by (eapply CT; eauto). apply (ri_eq _ RS c); auto. }
      intros t L k J. apply AB in J. change (r_h s k) with (r_h (beside src s) k). apply (later_frame (beside src s) t IB L).
      intros J'. apply (ri_tun _ RS) in J'. assert (J2 : In k (r_const src ++ r_tun src)) by (apply in_or_app; auto). apply (ri_in _ RS), (ri_top _ RS) in J2. lia.
  Qed.
End P.

(** {1 Examples} *)
Lemma steady_careful {N : num} h top (s : rst (N:=N)) : rreach h top (steady False) s -> rreach h top (careful False) s.
Proof. apply rreach_mono. intros t op [C _]. exact C. Qed.
Lemma alert_careful {N : num} h top (s : rst (N:=N)) : rreach h top alert s -> rreach h top (careful False) s.
Proof. apply rreach_mono. intros t op [ST _]. apply steady_weaken in ST. apply ST. Qed.

Definition no_lone_variableb {N : num} (s : rst (N:=N)) : bool :=
  forallb (fun v => existsb (fun f => existsb (same_instance v) (f_vars (r_h s f))) (g_all (r_g s))) (g_vars (r_g s)).
Lemma no_lone_variableb_ok {N : num} (s : rst (N:=N)) : no_lone_variableb s = true -> no_lone_variable s.
Proof.
  unfold no_lone_variableb. rewrite forallb_forall. intros Q v J. apply Q in J. apply existsb_exists in J as (f & Jf & X). exists f. split; auto.
  apply existsb_exists in X as (w & Jw & X). apply same_instance_spec in X. subst. auto.
Qed.
Definition all_listedb {N : num} (s : rst (N:=N)) : bool :=
  forallb (fun f => existsb (Nat.eqb f) (r_const s) || existsb (existsb (Nat.eqb f)) (tunable_clusters s)) (g_all (r_g s)).
Lemma all_listedb_ok {N : num} (s : rst (N:=N)) : all_listedb s = true -> all_listed s.
Proof.
  unfold all_listedb. rewrite forallb_forall. intros Q f J. apply Q, orb_true_iff in J as [J|J].
  - left. apply existsb_exists in J as (x & Jx & E). apply Nat.eqb_eq in E. subst; auto.
  - right. apply existsb_exists in J as (c & Jc & X). exists c. split; auto. apply existsb_exists in X as (x & Jx & E). apply Nat.eqb_eq in E. subst; auto.
Qed.
Fixpoint clearb {N : num} (F : nat -> func N) (before : list (list nat)) (cs : list (list nat)) : bool :=
  match cs with
  | [] => true
  | c :: r =>
      match c with
      | f :: _ :: _ => forallb (forallb (fun g => negb (vset_eqb (f_vars (F g)) (f_vars (F f))))) before
      | _ => true
      end && clearb F (before ++ [c]) r
  end.
Lemma clearb_ok {N : num} (OK : num_ok N) (s : rst (N:=N)) : (forall f, built (r_h s f)) -> clearb (r_h s) [] (tunable_clusters s) = true -> clear_sharing s.
Proof.
  intros HB Q. assert (G : forall cs before, clearb (r_h s) before cs = true -> forall old c f f' rest, cs = old ++ (f :: f' :: c) :: rest ->
    forall d g, In d (before ++ old) -> In g d -> vset_eqb (f_vars (r_h s g)) (f_vars (r_h s f)) = false).
  { induction cs as [|c cs IH]; intros before B old c' f f' rest E d g Jd Jg. destruct old; discriminate.
    cbn [clearb] in B. apply andb_true_iff in B as [B1 B2]. destruct old as [|o old]; cbn [app] in E; injection E as -> E.
    - rewrite app_nil_r in Jd. rewrite forallb_forall in B1. apply B1 in Jd. rewrite forallb_forall in Jd. apply Jd, negb_true_iff in Jg. auto.
    - eapply (IH (before ++ [o]) B2 old c' f f' rest E d g); auto. rewrite <- app_assoc. auto. }
  intros i j ci cj f f' L Ei Ej g Jg P. pose proof (nth_error_split _ _ Ej) as (old & rest & E & Lo).
  assert (Jd : In ci ([] ++ old)). { apply (nth_error_In _ i). cbn [app]. rewrite E, nth_error_app1 in Ei by lia. auto. }
  pose proof (G _ [] Q old cj f f' rest E ci g Jd Jg) as X.
  assert (NK : forall f, NoDup (map vkey (f_vars (r_h s f)))).
  { intros x. destruct (built_set_soup (r_h s x) (HB x)) as [Px Nx]. eapply Permutation_NoDup; [apply Permutation_map; exact Px|exact Nx]. }
  apply (vset_eqb_perm _ _ (NK g) (NK f)) in P. congruence.
Qed.

Notation copy_of src cp := (rf_absorb env_rev src cp (r_empty (r_h src) (r_top src))).
(** the model of C49: A - C - D - E with evidence on E, one weight shared by A - C
    and C - D, constant factors on A and D - E *)
Lemma field_lone : no_lone_variable field_state.
Proof. apply no_lone_variableb_ok. vm_compute. reflexivity. Qed.
Lemma field_listed : all_listed field_state.
Proof. apply all_listedb_ok. vm_compute. reflexivity. Qed.
Lemma field_built f : built (r_h field_state f).
Proof. apply (ri_built _ (rreach_inv _ _ _ _ gH_built field_reach)). Qed.
Lemma field_clear : clear_sharing field_state.
Proof. apply (clearb_ok QcNum_ok). exact field_built. vm_compute. reflexivity. Qed.

Example C46_field_example : exists s, copy_of field_state true = Ret tt s /\ same_content field_state s /\
  get_weights s = get_weights field_state /\ (forall k, In k (g_all (r_g s)) -> r_top field_state <= k).
Proof.
  destruct (C46_field_partial gH 6 field_state env_rev true gH_built (alert_careful _ _ _ field_reach) env_rev_ok field_lone field_listed field_clear)
    as (s & Q1 & Q2 & _ & Q3 & _ & _ & Q4 & _).
  exists s. split; [exact Q1|split; [exact Q2|split; [exact Q3|exact Q4]]].
Qed.
Example C46_graph_example : exists s, graph_absorb env_rev field_state false (r_empty (r_h field_state) (r_top field_state)) = Ret tt s /\ same_content field_state s.
Proof.
  destruct (C46_graph_partial gH 6 field_state env_rev false gH_built (alert_careful _ _ _ field_reach) env_rev_ok field_lone)
    as (s & Q1 & Q2 & _). exists s. split; [exact Q1|exact Q2].
Qed.
Example C46_distribution_example : exists s, copy_of field_state true = Ret tt s /\
  forall j, marginal (weight (r_h s) (contents s)) (contents s) exC j = marginal (weight (r_h field_state) (contents field_state)) (contents field_state) exC j.
Proof.
  destruct (C46_field_partial gH 6 field_state env_rev true gH_built (alert_careful _ _ _ field_reach) env_rev_ok field_lone field_listed field_clear)
    as (s & Q1 & Q2 & _ & _ & _ & _ & _ & RA).
  exists s. split; [exact Q1|]. intros j.
  apply (C46_distribution QcNum_ok gH 6 _ _ field_state s gH_built field_built (alert_careful _ _ _ field_reach) (alert_careful _ _ _ RA) Q2).
  vm_compute. right. left. reflexivity.
Qed.
Example C46_answers_example : exists s g, copy_of field_state true = Ret tt s /\
  get_marginal (r_h s) env_id exC 2 (r_g s) = Ret (map (marginal (weight (r_h field_state) (contents field_state)) (contents field_state) exC) (seq 0 2)) g.
Proof.
  apply (C46_answers_partial QcNum_ok gH 6 field_state env_rev true env_id 2 exC gH_built (alert_careful _ _ _ field_reach) env_rev_ok env_id_ok
    (le_S _ _ (le_n 1)) field_lone field_listed field_clear).
  - apply (symmetricb_ok QcNum_ok). vm_compute. reflexivity.
  - apply positiveb_ok. vm_compute. reflexivity.
  - apply hiddenb_ok. vm_compute. reflexivity.
  - apply field_tree.
Qed.
Example C46_independent_example : exists s t, copy_of field_state true = Ret tt s /\ set_weights [q 7 1] s = Ret tt t /\
  get_weights t = Ok [q 7 1] /\ forall f, In f (g_all (r_g field_state)) -> r_h t f = r_h field_state f.
Proof.
  destruct (C46_field_partial gH 6 field_state env_rev true gH_built (alert_careful _ _ _ field_reach) env_rev_ok field_lone field_listed field_clear)
    as (s & Q1 & _ & CC & _ & _ & _ & _ & RA).
  assert (L : length [q 7 1] = length (tunable_clusters s)).
  { transitivity (length (tunable_clusters field_state)). vm_compute. reflexivity. clear - CC. induction CC; simpl; auto. }
  destruct (C37_set_weights _ _ s [q 7 1] field_built (rreach_mono _ _ _ any s (fun _ _ _ => Logic.I) RA) L) as (t & Q2 & Q3 & _).
  exists s, t. split; [exact Q1|split; [exact Q2|split; [exact Q3|]]].
  apply (C46_independent gH 6 field_state env_rev s gH_built (alert_careful _ _ _ field_reach) env_rev_ok field_lone field_listed field_clear Q1).
  eapply (LT_ret s s env_id (RWeights [q 7 1])). apply LT_start. exact Logic.I. exact Logic.I. cbn [rcall]. unfold runit, rmapo. rewrite Q2. reflexivity.
Qed.

(** {1 The statement of C46 does not hold for every model} *)
Definition kH (f : nat) : func QcNum :=
  match f with
  | 0 => expo_of (sym2 exA exC (q 2 1) (q 1 1) (q 3 1)) (q 1 2)
  | 1 => expo_of (table [exA] [([0], q 1 1); ([1], q 3 1)]) (q 1 1)
  | 2 => expo_of (table [exA] [([0], q 2 1); ([1], q 1 1)]) (q 2 1)
  | 3 => expo_of (sym2 exC exD (q 1 1) (q 4 1) (q 2 1)) (q 3 1)
  | 4 => table [exE; exA'] [([0; 0], q 1 1)]
  | _ => table [exA] [([0], q 1 1); ([1], q 3 1)]
  end.
Lemma kH_built f : built (kH f).
Proof.
  do 5 (destruct f as [|f]; [first [apply expo_of_built|apply table_built]; repeat constructor; auto using exA_made, exB_made, exC_made, exD_made, exE_made, exA'_made|]).
  apply table_built; repeat constructor; auto using exA_made.
Qed.
Definition state_of {A} (o : out (rst (N:=QcNum)) A) : rst := rafter (r_empty kH 6) o.
Definition returns {A} (o : out (rst (N:=QcNum)) A) : bool := match o with Ret _ _ => true | _ => false end.
Lemma returns_state (o : out (rst (N:=QcNum)) unit) : returns o = true -> o = Ret tt (state_of o).
Proof. destruct o as [[]| | | |]; simpl; intros; congruence. Qed.
Lemma threw_state (o : out (rst (N:=QcNum)) unit) : rthrew o = true -> o = Thr (state_of o).
Proof. destruct o; simpl; intros; congruence. Qed.
Lemma k_reach ops : rsteady ops (r_empty kH 6) = true -> rreach kH 6 (careful False) (rruns (r_empty kH 6) ops).
Proof. intros Q. apply steady_careful. apply rruns_steady. constructor. exact Q. Qed.
Lemma weights_differ (r r' : res (list QcNum)) : match r, r' with Ok [a], Ok [b] => negb (neqb a b) | _, _ => false end = true -> r <> r'.
Proof.
  destruct r as [[|a [|]]| | | |], r' as [[|b [|]]| | | |]; try discriminate. intros Q E. injection E as ->.
  apply negb_true_iff, (neqb_false QcNum_ok) in Q. congruence.
Qed.

(** The copy constructors share the factors with the source: the weights given to
    the copy are then the weights of the source. *)
Theorem C46_shared_refuted : exists src s t, rreach kH 6 (careful False) src /\ no_lone_variable src /\ all_listed src /\ clear_sharing src /\
  copy_of src false = Ret tt s /\ set_weights [q 9 1] s = Ret tt t /\
  get_weights (beside src t) <> get_weights src.
Proof.
  set (src := rruns (r_empty kH 6) [RTun (Some 0) None; RConst (Some 5)]).
  set (s := state_of (copy_of src false)).
  set (t := state_of (set_weights [q 9 1] s)).
  exists src, s, t.
  assert (R : rreach kH 6 (careful False) src) by (apply k_reach; vm_compute; reflexivity).
  split; [exact R|]. split; [apply no_lone_variableb_ok; vm_compute; reflexivity|]. split; [apply all_listedb_ok; vm_compute; reflexivity|].
  split. { apply (clearb_ok QcNum_ok). exact (ri_built _ (rreach_inv _ _ _ _ kH_built R)). vm_compute. reflexivity. }
  split; [apply returns_state; vm_compute; reflexivity|]. split; [apply returns_state; vm_compute; reflexivity|].
  apply weights_differ. vm_compute. reflexivity.
Qed.

(** A variable left without factors by an insertion that failed is not in the
    copy; when it has an evidence, the copy throws. *)
Theorem C46_lone_variable_refuted :
  (exists src s, rreach kH 6 (careful False) src /\ copy_of src true = Ret tt s /\ In exE (g_vars (r_g src)) /\ ~ In exE (g_vars (r_g s))) /\
  (exists src s, rreach kH 6 (careful False) src /\ copy_of src true = Thr s /\ evidence (r_g src) exE 1).
Proof.
  split.
  - set (src := rruns (r_empty kH 6) [RConst (Some 5); RConst (Some 4)]). exists src, (state_of (copy_of src true)).
    split; [apply k_reach; vm_compute; reflexivity|]. split; [apply returns_state; vm_compute; reflexivity|].
    split. vm_compute. right. left. reflexivity. vm_compute. intros [J|[]]. inversion J.
  - set (src := rruns (r_empty kH 6) [RConst (Some 5); RConst (Some 4); RGraph (OSet exE 1)]). exists src, (state_of (copy_of src true)).
    split; [apply k_reach; vm_compute; reflexivity|]. split; [apply threw_state; vm_compute; reflexivity|].
    exists 1. split; vm_compute; reflexivity.
Qed.

(** A factor whose insertion as sharer failed is in the model, and is lost by the copy. *)
Theorem C46_unlisted_refuted : exists src s, rreach kH 6 (careful False) src /\ no_lone_variable src /\ clear_sharing src /\
  copy_of src true = Ret tt s /\ length (g_all (r_g src)) = 2 /\ length (g_all (r_g s)) = 1.
Proof.
  set (src := rruns (r_empty kH 6) [RTun (Some 0) None; RTun (Some 3) (Some [exE])]). exists src, (state_of (copy_of src true)).
  assert (R : rreach kH 6 (careful False) src) by (apply k_reach; vm_compute; reflexivity).
  split; [exact R|]. split; [apply no_lone_variableb_ok; vm_compute; reflexivity|].
  split. { apply (clearb_ok QcNum_ok). exact (ri_built _ (rreach_inv _ _ _ _ kH_built R)). vm_compute. reflexivity. }
  split; [apply returns_state; vm_compute; reflexivity|]. split; vm_compute; reflexivity.
Qed.

(** Two clusters with factors on the variable A: the copy puts C - D with the
    first of them, so that its weights are not those of the source; and the copy
    constructor changes the weight of the factor of the source too. *)
Theorem C46_sharing_refuted : exists src s, rreach kH 6 (careful False) src /\ no_lone_variable src /\ all_listed src /\
  tunable_clusters src = [[0; 1]; [2; 3]] /\ copy_of src false = Ret tt s /\
  tunable_clusters s = [[0; 1; 3]; [2]] /\ f_exp (r_h s 3) <> f_exp (r_h src 3).
Proof.
  set (src := rruns (r_empty kH 6) [RTun (Some 0) None; RTun (Some 2) None; RTun (Some 3) (Some [exA]); RTun (Some 1) (Some [exC; exA])]).
  exists src, (state_of (copy_of src false)).
  split; [apply k_reach; vm_compute; reflexivity|]. split; [apply no_lone_variableb_ok; vm_compute; reflexivity|]. split; [apply all_listedb_ok; vm_compute; reflexivity|].
  split; [vm_compute; reflexivity|]. split; [apply returns_state; vm_compute; reflexivity|]. split; [vm_compute; reflexivity|].
  vm_compute. intros J. inversion J.
Qed.

Print Assumptions C46_field_partial.
Print Assumptions C46_graph_partial.
Print Assumptions C46_distribution.
Print Assumptions C46_answers_partial.
Print Assumptions C46_independent.
Print Assumptions C46_shared_refuted.
Print Assumptions C46_lone_variable_refuted.
Print Assumptions C46_unlisted_refuted.
Print Assumptions C46_sharing_refuted.
