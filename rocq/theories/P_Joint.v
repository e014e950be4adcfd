(** Property C24: the joint distribution of a group of variables, compared with
    sums over all the assignments of the variables (BeliefSpec.v, JointSpec.v).
    The histories are any sequences of calls of the API, with arbitrary iteration
    orders and schedules, that respect [proper_use]. *)
From Coq Require Import String List Arith Bool Lia Permutation Relations QArith Qcanon Field.
From Verif Require Import Res Num Categoric Combs Func FuncProofs GroupProofs FactorProofs FactorApi Special SpecialProofs
  Graph GraphLemmas Clusters Belief Query GraphInv EvidInv BeliefInv BigOp Tree Cycle BPStep BPRun GraphSpec Hist
  P_Categoric P_Factor Demo P_Graph BeliefSpec Sums Exact BeliefHist Queries Rebuild BeliefDemo P_Belief Parts JointSpec Joint.
Import ListNotations.
Open Scope nat_scope.
Notation hidden := BeliefSpec.hidden.

Section P.
  Context {N : num} (OK : num_ok N).
  Variable H : nat -> func N.
  (** the factor objects are any objects the API can build *)
  Hypothesis HB : forall f, built (H f).
  Notation gst := (gst (N:=N)).
  Implicit Types s : gst.
  Local Notation HGd := (built_goods OK H HB).
  Notation model := (sp_run (fvars H)).
  Add Field NFieldPJ : (ok_field N OK).

  (** the group is made of variables of the model, the hidden ones in trees *)
  Definition group_of (A : spec) (g : group) : Prop :=
    wf_group g /\ g_soup g <> [] /\ (forall v, In v (g_soup g) -> In v (sp_vars A)) /\
    (forall v, In v (g_soup g) -> hidden A v -> tree_around H A v).
  (** conditional probability that the variables [vs] take the values [l] *)
  Definition joint (A : spec) (vs : list var) (l : list nat) : N :=
    (mass (weight H A) A (takes_all vs l) / mass (weight H A) A (fun _ => true))%num.

  (** The full property has no hypothesis on the factors and on the group. It is
      proved for factors symmetric between hidden variables, and for groups with
      at most one observed variable whose linked hidden variables are linked
      inside the group (refutations below for the others). *)
  Theorem C24_joint_partial : forall ops s e n g, reach H (proper_use H) ops s -> env_ok e -> 1 <= n ->
    symmetric H (model ops) -> positive (weight H (model ops)) (model ops) ->
    group_of (model ops) g -> joined_inside H (model ops) (g_soup g) -> one_observed (model ops) (g_soup g) ->
    exists f s', get_joint H e g n s = Ret f s' /\ f_vars f = g_soup g /\
      exists c, (n0 < c)%num /\ forall l, valid_comb (map vsize (g_soup g)) l ->
        fval f l = (c * mass (weight H (model ops)) (model ops) (takes_all (g_soup g) l))%num.
  Proof.
    intros ops s e n g R E Ln SY P (WG & NE & KN & TR) JI OO. pose proof (reach_usable OK H HGd ops s R) as U.
    destruct (joint_exact OK H HGd (model ops) e n s g U E Ln SY P WG NE KN TR JI OO) as (f & s' & Q & _ & Gf & _ & c & Pc & V).
    exists f, s'. split; auto. split; [unfold f_vars; rewrite Gf; auto|]. eauto.
  Qed.

  Lemma joint_total s A (w : asg -> N) vs : inv H s -> abs s A -> (forall v, In v vs -> In v (sp_vars A)) ->
    sumL (fun l => mass w A (takes_all vs l)) (all_combs (map vsize vs)) = mass w A (fun _ => true).
  Proof.
    intros [C _] AB KN. unfold mass. rewrite (sumL_swap OK). apply sumL_ext. intros x Ix. rewrite andb_true_r.
    destruct (agrees A x) eqn:Ag; [|apply (sumL_0 OK); intros; auto].
    assert (V : valid_comb (map vsize vs) (map (val x) vs)).
    { rewrite <- (ab_vars _ _ AB) in Ix. destruct (asg_range s x Ix) as (y & -> & Ry). clear - C AB KN Ry. unfold valid_comb.
      induction vs as [|v vs IH]; simpl; constructor.
      - destruct (known_at A s v AB (KN v (or_introl eq_refl))) as [a Ha]. rewrite (val_asg H s C y a v Ha).
        rewrite <- (szn_at _ _ _ Ha). apply Ry. eapply var_at_lt; eauto.
      - apply IH. intros; apply KN; simpl; auto. }
    apply all_combs_In in V. apply in_split in V as (l1 & l2 & E). pose proof (all_combs_NoDup (map vsize vs)) as ND. rewrite E in ND. rewrite E.
    rewrite (sumL_app OK). simpl. destruct (NoDup_remove _ _ _ ND) as [_ NI]. rewrite in_app_iff in NI.
    assert (Z : forall l, (forall z, In z l -> z <> map (val x) vs) -> sumL (fun a => if true && takes_all vs a x then w x else n0) l = (n0 : N)).
    { intros l Hl. apply (sumL_0 OK). intros z Iz. simpl. unfold takes_all. destruct (list_eq_dec Nat.eq_dec (map (val x) vs) z) as [Q|Q]; auto. exfalso. apply (Hl z); auto. }
    simpl in Z. rewrite (Z l1) by (intros z Iz ->; tauto). rewrite (Z l2) by (intros z Iz ->; tauto). unfold takes_all.
    destruct (list_eq_dec Nat.eq_dec (map (val x) vs) (map (val x) vs)); [|congruence]. ring.
  Qed.

  Lemma mass_pos s A : inv H s -> abs s A -> (forall x, In x (all_asg (sp_vars A)) -> (n0 <= weight H A x)%num) ->
    positive (weight H A) A -> (n0 < mass (weight H A) A (fun _ => true))%num.
  Proof.
    intros I AB NN (x & (Ix & Ag) & P). unfold mass. apply (sumL_pos OK).
    - intros y Iy. rewrite andb_true_r. destruct (agrees A y); auto. apply (nle_refl OK).
    - exists x. split; auto. rewrite Ag. auto.
  Qed.

  (** the normalised values of the factor are the conditional probabilities *)
  Theorem C24_joint_probabilities_partial : forall ops s e n g, reach H (proper_use H) ops s -> env_ok e -> 1 <= n ->
    symmetric H (model ops) -> positive (weight H (model ops)) (model ops) ->
    group_of (model ops) g -> joined_inside H (model ops) (g_soup g) -> one_observed (model ops) (g_soup g) ->
    exists f s', get_joint H e g n s = Ret f s' /\ f_vars f = g_soup g /\
      get_probabilities f = Ok (map (joint (model ops) (g_soup g)) (all_combs (map vsize (g_soup g)))).
  Proof.
    intros ops s e n g R E Ln SY P (WG & NE & KN & TR) JI OO. pose proof (reach_usable OK H HGd ops s R) as U. set (A := model ops) in *.
    destruct (joint_exact OK H HGd A e n s g U E Ln SY P WG NE KN TR JI OO) as (f & s' & Q & _ & Gf & Wf & c & Pc & V).
    exists f, s'. split; auto. split; [unfold f_vars; rewrite Gf; auto|]. rewrite (get_probabilities_ok OK) by apply Wf. f_equal. cbv zeta.
    pose proof U as [IV AB _ _]. pose proof IV as [C _].
    assert (FS : fsizes f = map vsize (g_soup g)). { unfold fsizes, sizes_of. rewrite Gf. auto. }
    rewrite FS.
    assert (T : sumL (fval f) (all_combs (map vsize (g_soup g))) = (c * mass (weight H A) A (fun _ => true))%num).
    { rewrite <- (joint_total s A (weight H A) (g_soup g) IV AB KN). rewrite <- (sumL_mul_l OK). apply sumL_ext. intros l Il. apply V. apply all_combs_In; auto. }
    rewrite T.
    assert (NN : forall x, In x (all_asg (sp_vars A)) -> (n0 <= weight H A x)%num).
    { intros x Ix. rewrite <- (symmetric_weight H s A x); auto. apply (w_spec_nonneg OK H HGd s); auto. apply (usable_evened H A s U). apply symmetric_balanced; auto. }
    pose proof (mass_pos s A IV AB NN P) as MP.
    assert (CM : (c * mass (weight H A) A (fun _ => true))%num <> n0) by (apply (nlt_neq' OK), (ok_mul N OK); auto).
    destruct (neqb (c * mass (weight H A) A (fun _ => true))%num n0) eqn:Z; [apply (ok_eqb N OK) in Z; congruence|].
    apply map_ext_in. intros l Il. rewrite V by (apply all_combs_In; auto). unfold joint. field. split; apply (nlt_neq' OK); auto.
  Qed.

  (** by names *)
  Theorem C24_joint_by_names_partial : forall ops s e n names vs, reach H (proper_use H) ops s -> env_ok e -> 1 <= n ->
    symmetric H (model ops) -> positive (weight H (model ops)) (model ops) ->
    sp_names (model ops) names = Some vs -> vs <> [] -> NoDup (map vkey vs) -> (forall v, In v vs -> hidden (model ops) v -> tree_around H (model ops) v) ->
    joined_inside H (model ops) vs -> one_observed (model ops) vs ->
    exists f s', get_joint_names H e names n s = Ret f s' /\ f_vars f = vs /\
      get_probabilities f = Ok (map (joint (model ops) vs) (all_combs (map vsize vs))).
  Proof.
    intros ops s e n names vs R E Ln SY P Nm NE ND TR JI OO. pose proof (reach_usable OK H HGd ops s R) as [_ AB _ _].
    assert (GC : group_ctor vs = Ok (mkGroup vs vs)) by (apply group_ctor_ok; auto).
    destruct (C24_joint_probabilities_partial ops s e n (mkGroup vs vs)) as (f & s' & Q & Vf & Pf); auto.
    { split; [apply group_ctor_wf in GC; auto|]. split; auto. split; auto. simpl. clear - Nm. revert vs Nm.
      induction names as [|nm names IH]; simpl; intros vs Nm. injection Nm as <-. simpl. tauto.
      destruct (sp_named (model ops) nm) as [v|] eqn:Ev; [|discriminate]. destruct (sp_names (model ops) names) as [l|]; [|discriminate]. injection Nm as <-.
      intros w [<-|I]; [|eapply IH; eauto]. unfold sp_named in Ev. apply find_some in Ev. tauto. }
    exists f, s'. split; auto. unfold get_joint_names. rewrite (sp_names_spec s _ names AB), Nm. cbn [lift obind]. rewrite GC. cbn [lift obind]. exact Q.
  Qed.
  Theorem C24_unknown_name : forall ops s e n names, reach H no_failed_removal ops s -> sp_names (model ops) names = None ->
    get_joint_names H e names n s = Thr s.
  Proof.
    intros ops s e n names R Nm. destruct (reach_abs H (built_solids H HB) no_failed_removal ops s (fun _ _ h => h) R) as [_ AB].
    unfold get_joint_names. rewrite (sp_names_spec s _ names AB), Nm. reflexivity.
  Qed.
  (** a group with a variable that is not in the model is refused *)
  Theorem C24_unknown_variable : forall ops s e n g v, reach H (proper_use H) ops s -> env_ok e -> 1 <= n ->
    balanced H (model ops) -> positive (weight_swapped H (model ops)) (model ops) ->
    In v (g_soup g) -> ~ In (vkey v) (map vkey (sp_vars (model ops))) ->
    exists s', get_joint H e g n s = Thr s'.
  Proof.
    intros ops s e n g v R E Ln B P Iv NI. pose proof (reach_usable OK H HGd ops s R) as U. set (A := model ops) in *.
    destruct (check_usable OK H HGd A e SUM n s U E Ln B P) as (s' & r & Q & U' & _ & _ & K).
    exists s'. unfold get_joint. rewrite Q. cbn [obind]. pose proof U' as [_ AB' _ _].
    assert (X : rmap (fun v => match locate s' v with Some l => Ok l | None => Throw end) (g_soup g) = Throw).
    { clear - Iv NI AB' A. induction (g_soup g) as [|w l IH]; [contradiction|]. simpl. destruct Iv as [->|I].
      - destruct (locate s' v) as [lc|] eqn:L; auto. exfalso. apply NI. rewrite <- (ab_vars _ _ AB'). unfold locate in L. destruct (find_node s' v) as [a|] eqn:F; [|discriminate].
        unfold find_node in F. apply find_pos_some in F as (w & Hw & Ek & _). apply var_veqb_key in Ek. rewrite Ek. apply in_map. eapply nth_error_In; eauto.
      - rewrite (IH I). destruct (locate s' w); auto. }
    rewrite X. reflexivity.
  Qed.
End P.

(** {1 Tests of the hypotheses} *)
Section Tests.
  Context {N : num}.
  Variable H : nat -> func N.
  Definition joinedb (A : spec) (vs : list var) : bool :=
    forallb (fun v => forallb (fun w => same_instance v w || negb (hiddenb A v) || negb (hiddenb A w) ||
      existsb (fun p => same_instance v (fst p) && same_instance w (snd p) || same_instance w (fst p) && same_instance v (snd p)) (edges H A)) vs) vs.
  Lemma linked_hidden A v w : hidden_linked H A v w -> v = w \/ hidden A v /\ hidden A w.
  Proof. intros L. induction L as [x y (Hx & Hy & _)| |x y z _ [->|[? ?]] _ [->|[? ?]]]; auto. Qed.
  Lemma joinedb_ok A vs : joinedb A vs = true -> joined_inside H A vs.
  Proof.
    unfold joinedb. rewrite forallb_forall. intros Q v w Iv Iw L. specialize (Q v Iv). rewrite forallb_forall in Q. specialize (Q w Iw).
    apply linked_hidden in L as [->|[Hv Hw]]; [apply rt_refl|]. apply hiddenb_spec in Hv as Bv. apply hiddenb_spec in Hw as Bw. rewrite Bv, Bw in Q. simpl in Q.
    rewrite !orb_false_r in Q. apply orb_true_iff in Q as [Q|Q]. apply same_instance_spec in Q. subst; apply rt_refl.
    apply rt_step. split; auto. apply edges_spec. apply existsb_exists in Q as ([a b] & I & Q). simpl in Q.
    apply orb_true_iff in Q as [Q|Q]; apply andb_true_iff in Q as [Q1 Q2]; apply same_instance_spec in Q1, Q2; subst; auto.
  Qed.
  Definition one_observedb (A : spec) (vs : list var) : bool :=
    forallb (fun v => forallb (fun w => same_instance v w || negb (is_obs A v) || negb (is_obs A w)) vs) vs.
  Lemma one_observedb_ok A vs : one_observedb A vs = true -> one_observed A vs.
  Proof.
    unfold one_observedb. rewrite forallb_forall. intros Q v w Iv Iw Ov Ow. specialize (Q v Iv). rewrite forallb_forall in Q. specialize (Q w Iw).
    rewrite Ov, Ow in Q. simpl in Q. rewrite !orb_false_r in Q. apply same_instance_spec; auto.
  Qed.
  Definition knownb (A : spec) (vs : list var) : bool := forallb (fun v => existsb (same_instance v) (sp_vars A)) vs.
  Lemma knownb_ok A vs : knownb A vs = true -> forall v, In v vs -> In v (sp_vars A).
  Proof. unfold knownb. rewrite forallb_forall. intros Q v I. apply mem_var_spec; auto. Qed.
End Tests.

(** {1 The other cases are wrong} *)
Definition probs_different (o : out (gst (N:=QcNum)) (func QcNum)) (l : list QcNum) : bool :=
  match o with
  | Ret f _ => match get_probabilities f with Ok x => negb ((length x =? length l) && forallb (fun p => neqb (fst p) (snd p)) (combine x l)) | _ => false end
  | _ => false
  end.
Lemma probs_different_spec o l : probs_different o l = true -> exists f s' l', o = Ret f s' /\ get_probabilities f = Ok l' /\ l' <> l.
Proof.
  destruct o as [f s'| | | |]; cbn [probs_different]; try discriminate. destruct (get_probabilities f) as [x| | | |] eqn:G; try discriminate.
  intros Q. exists f, s', x. split; [reflexivity|]. split; [exact G|]. intros ->. apply negb_true_iff in Q. pose proof (answers_complete l g_empty) as T. unfold answers in T. rewrite T in Q. discriminate.
Qed.

(** the hypotheses of the theorems, but one *)
Definition wrong_joint (H : nat -> func QcNum) (ops : list gop) (g : group) : Prop :=
  exists s e n f s' l, (forall f, built (H f)) /\ reach H (proper_use H) ops s /\ env_ok e /\ 1 <= n /\
    balanced H (sp_run (fvars H) ops) /\ positive (weight H (sp_run (fvars H) ops)) (sp_run (fvars H) ops) /\
    group_of H (sp_run (fvars H) ops) g /\
    get_joint H e g n s = Ret f s' /\ get_probabilities f = Ok l /\
    l <> map (joint H (sp_run (fvars H) ops) (g_soup g)) (all_combs (map vsize (g_soup g))).

Lemma wrong_joint_intro ops g : properly bH ops spec_empty = true -> sane bH ops g_empty = true -> balancedb bH (bmodel ops) = true ->
  positiveb (weight bH (bmodel ops)) (bmodel ops) = true -> group_ctor (g_soup g) = Ok g -> knownb (bmodel ops) (g_soup g) = true ->
  (forall v, tree_around bH (bmodel ops) v) ->
  probs_different (get_joint bH env_id g 1 (runs bH ops)) (map (joint bH (bmodel ops) (g_soup g)) (all_combs (map vsize (g_soup g)))) = true ->
  wrong_joint bH ops g.
Proof.
  intros P S B W G K T D. apply probs_different_spec in D as (f & s' & l & Q1 & Q2 & Q3).
  exists (runs bH ops), env_id, 1, f, s', l. splits; auto using bH_built, env_id_ok, balancedb_ok, positiveb_ok.
  - apply (properly_reach bH); auto.
  - split; [eapply group_ctor_wf; eauto|]. split; [|split]; auto.
    apply group_ctor_ok in G. tauto. apply knownb_ok; auto.
Qed.

(** the chain A - C - D: A and D are linked through C, outside of the group *)
Theorem C24_detached_group_refuted : exists H ops g, symmetric H (sp_run (fvars H) ops) /\ one_observed (sp_run (fvars H) ops) (g_soup g) /\ wrong_joint H ops g.
Proof.
  exists bH, [OAdd (Some 0); OAdd (Some 1)], (mkGroup [exA; exD] [exA; exD]). split; [apply (symmetricb_ok QcNum_ok); vm_compute; reflexivity|].
  split; [apply one_observedb_ok; vm_compute; reflexivity|].
  apply wrong_joint_intro; [vm_compute; reflexivity|vm_compute; reflexivity|vm_compute; reflexivity|vm_compute; reflexivity|reflexivity|vm_compute; reflexivity| |vm_compute; reflexivity].
  intros v. apply (forestb_ok bH). vm_compute. repeat constructor; simpl; intuition discriminate. vm_compute. reflexivity.
Qed.
(** a factor that is not symmetric *)
Theorem C24_asymmetric_refuted : exists H ops g, joined_inside H (sp_run (fvars H) ops) (g_soup g) /\ one_observed (sp_run (fvars H) ops) (g_soup g) /\ wrong_joint H ops g.
Proof.
  exists bH, [OAdd (Some 5); OAdd (Some 1)], (mkGroup [exC; exD] [exC; exD]). split; [apply (joinedb_ok bH); vm_compute; reflexivity|].
  split; [apply one_observedb_ok; vm_compute; reflexivity|].
  apply wrong_joint_intro; [vm_compute; reflexivity|vm_compute; reflexivity|vm_compute; reflexivity|vm_compute; reflexivity|reflexivity|vm_compute; reflexivity| |vm_compute; reflexivity].
  intros v. apply (forestb_ok bH). vm_compute. repeat constructor; simpl; intuition discriminate. vm_compute. reflexivity.
Qed.
(** two observed variables: undefined behaviour *)
Theorem C24_two_observed_refuted : exists (H : nat -> func QcNum) ops s e n g,
  (forall f, built (H f)) /\ reach H (proper_use H) ops s /\ env_ok e /\ 1 <= n /\
  symmetric H (sp_run (fvars H) ops) /\ positive (weight H (sp_run (fvars H) ops)) (sp_run (fvars H) ops) /\
  group_of H (sp_run (fvars H) ops) g /\ joined_inside H (sp_run (fvars H) ops) (g_soup g) /\ get_joint H e g n s = Undef.
Proof.
  set (ops := [OAdd (Some 0); OAdd (Some 1); OSet exA 0; OSet exD 1]).
  exists bH, ops, (runs bH ops), env_id, 1, (mkGroup [exA; exD] [exA; exD]). splits; [exact bH_built| |exact env_id_ok|exact (le_n 1)| | | | |].
  - apply (properly_reach bH); vm_compute; reflexivity.
  - apply (symmetricb_ok QcNum_ok); vm_compute; reflexivity.
  - apply positiveb_ok; vm_compute; reflexivity.
  - split; [split; vm_compute; repeat constructor; simpl; intuition discriminate|]. split; [|split]. discriminate. apply knownb_ok; vm_compute; reflexivity.
    intros v _ _. apply (forestb_ok bH). vm_compute. repeat constructor; simpl; intuition discriminate. vm_compute. reflexivity.
  - apply (joinedb_ok bH); vm_compute; reflexivity.
  - apply undefd_spec. vm_compute. reflexivity.
Qed.

(** {1 A history that meets the hypotheses} 

    The tree A - C - D, C - E of P_Belief.v, D observed; the group C, D, A, in an
    order that is not the one of the model. *)
Definition cda : group := mkGroup [exC; exD; exA] [exC; exD; exA].
Example tale_group : group_of bH (bmodel tale) cda.
Proof.
  split; [split; vm_compute; repeat constructor; simpl; intuition discriminate|]. split; [discriminate|]. split; [apply knownb_ok; vm_compute; reflexivity|].
  intros v _ _. apply tale_tree.
Qed.
Example tale_joined : joined_inside bH (bmodel tale) (g_soup cda). Proof. apply (joinedb_ok bH). vm_compute. reflexivity. Qed.
Example tale_one_observed : one_observed (bmodel tale) (g_soup cda). Proof. apply one_observedb_ok. vm_compute. reflexivity. Qed.
Example tale_joint : exists f s', get_joint bH env_rev cda 3 (runs bH tale) = Ret f s' /\ f_vars f = [exC; exD; exA] /\
  get_probabilities f = Ok (map (joint bH (bmodel tale) [exC; exD; exA]) (all_combs [2; 2; 2])).
Proof.
  exact (C24_joint_probabilities_partial QcNum_ok bH bH_built tale (runs bH tale) env_rev 3 cda tale_reach env_rev_ok
    (le_S _ _ (le_S _ _ (le_n 1))) tale_symmetric tale_positive tale_group tale_joined tale_one_observed).
Qed.
Example tale_joint_values : map (fun p => neqb (fst p) (snd p))
  (combine (map (joint bH (bmodel tale) [exC; exD; exA]) (all_combs [2; 2; 2])) [0%num; 0%num; q 22 115; q 33 115; 0%num; 0%num; q 6 115; q 54 115]) = repeat true 8.
Proof. vm_compute. reflexivity. Qed.

Print Assumptions C24_joint_partial.
Print Assumptions C24_joint_probabilities_partial.
Print Assumptions C24_joint_by_names_partial.
Print Assumptions C24_unknown_name.
Print Assumptions C24_unknown_variable.
Print Assumptions C24_detached_group_refuted.
Print Assumptions C24_asymmetric_refuted.
Print Assumptions C24_two_observed_refuted.
