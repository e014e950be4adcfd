(** Property C46, for conditional random fields: what the constructor from a random
    field and the copy constructor give, and when they throw. *)
From Coq Require Import String List Arith Bool Lia Permutation Relations QArith Qcanon.
From Verif Require Import Res Num Categoric Combs Func FuncProofs GroupProofs FactorProofs FactorApi Special SpecialProofs
  Graph GraphLemmas Clusters Belief Query GraphInv EvidInv BeliefInv BigOp Tree Cycle BPStep BPRun GraphSpec Hist P_Graph BeliefSpec Sums Exact BeliefHist Queries
  Rebuild P_Belief Gibbs Parts JointSpec Joint P_Joint SafeSpec Safe P_Safe Train TrainHist Coherent TrainSpec Gradient TrainInv GradientRun P_Categoric P_Factor Demo BeliefDemo TrainDemo P_Train
  P_Gradient P_GradientDemo FieldHist P_Field Plan CopyProofs P_Copy FieldSafeSpec FieldSafe P_FieldSafe SampleSafe CRF CRFHist P_CRF CRFInv P_CRFDemo
  CondCopy P_CondAnswers CondSafeSpec CondSafe P_CondSafe.
Import ListNotations.
Open Scope nat_scope.
Notation hidden := BeliefSpec.hidden.

(** {1 Specification} *)
Section Spec.
  Context {N : num}.
  Notation rst := (rst (N:=N)).
  Notation crf := (crf (N:=N)).

  (** the models a conditional random field is made from: random fields (as for
      C46) and conditional random fields *)
  Inductive source : rst -> Prop :=
  | SRC_field h top src : (forall f, built (h f)) -> rreach h top (careful False) src -> source src
  | SRC_cond c : clives false c -> source (c_r c).
  (** no two variables with the same name *)
  Definition distinct_names (s : rst) : Prop :=
    forall v w, In v (g_vars (r_g s)) -> In w (g_vars (r_g s)) -> vname v = vname w -> v = w.
  Definition seen (s : rst) (v : var) : Prop := exists k, evidence (r_g s) v k.
  (** a tunable factor has only observed variables *)
  Definition tunable_all_seen (s : rst) : Prop :=
    exists c f, In c (tunable_clusters s) /\ In f c /\ forall v, In v (f_vars (r_h s f)) -> seen s v.
End Spec.

Section P.
  Context {N : num} (OK : num_ok N).
  Notation rst := (rst (N:=N)).
  Notation crf := (crf (N:=N)).
  Implicit Types s src : rst.

  Lemma source_coh src : source src -> coh False src.
  Proof.
    intros [h top s Hb R|c R]. eapply rreach_coh; eauto.
    pose proof (cf_fresh _ _ (clives_full _ _ R)) as C. cbn [fresh] in C. destruct C as [I V _]. constructor; auto. tauto.
  Qed.
  Lemma observed_seen P s v : coh P s -> In v (g_vars (r_g s)) -> ((match observed_at (r_g s) v with Some _ => true | None => false end) = true <-> seen s v).
  Proof.
    intros C J. apply In_nth_error in J as (a & V). destruct (ch_inv _ _ C) as [X _]. destruct (observed_at_ok s a v (co_vars _ _ _ X) V) as [O _]. rewrite O. unfold seen.
    destruct (g_ev (r_g s) a) as [k|] eqn:G; split; intros Q; try discriminate; auto.
    - exists k. apply (evidence_at (r_h s) (r_g s) _ a v k X V). auto.
    - destruct Q as (k & Q). apply (evidence_at (r_h s) (r_g s) _ a v k X V) in Q. congruence.
  Qed.
  Lemma no_seen P s : coh P s -> (exists v, seen s v) <-> keys (gsize (r_g s)) (g_ev (r_g s)) <> [].
  Proof.
    intros C. destruct (ch_inv _ _ C) as [X _]. split.
    - intros (v & k & a & V & Ev) Q. assert (J : In a (keys (gsize (r_g s)) (g_ev (r_g s)))). { apply keys_In. split; eauto. apply var_at_lt in V. auto. }
      rewrite Q in J. destruct J.
    - intros Q. destruct (keys _ _) as [|a l] eqn:K; [congruence|]. assert (J : In a (keys (gsize (r_g s)) (g_ev (r_g s)))) by (rewrite K; simpl; auto).
      apply keys_In in J as (_ & k & Ev). destruct (co_ev _ _ _ X a k Ev) as (v & V & _). exists v, k, a. auto.
  Qed.

  (** what is seen in the copy is what is seen in the source *)
  Lemma seen_copied P src copy done s : coh P src -> copied src copy done s -> clustered src copy s (tunable_clusters src) ->
    (existsb (fun t => existsb (all_seen s) (bases t)) (r_tuners s) = true <-> tunable_all_seen src).
  Proof.
    intros CS CY CL. pose proof (cy_coh _ _ _ _ CY) as C. pose proof (copied_same _ _ _ _ _ CS CY) as (PV & EV & _).
    assert (SE : forall v, seen s v <-> seen src v). { intros v. unfold seen. split; intros (k & Q); exists k; apply EV; auto. }
    assert (FV : forall f k, ttwin src copy s f k -> f_vars (r_h s k) = f_vars (r_h src f)). { intros f k T. apply ttwin_tuned in T. apply T. }
    assert (AS : forall f b, In f (concat (tunable_clusters src)) -> ttwin src copy s f (bt_fac b) ->
      (all_seen s b = true <-> forall v, In v (f_vars (r_h src f)) -> seen src v)).
    { intros f b Jf T. unfold all_seen. rewrite forallb_forall, (FV f _ T). 
      assert (IV : forall v, In v (f_vars (r_h src f)) -> In v (g_vars (r_g s))).
      { intros v Jv. apply (Permutation_in _ PV). apply (src_vars_in P src CS f v); auto. apply (ri_in _ (ch_r _ _ CS)). apply in_or_app. right. apply (ri_tun _ (ch_r _ _ CS)). auto. }
      split; intros Q v Jv; specialize (Q v Jv); [apply SE|apply SE in Q]; apply (observed_seen True s v C (IV v Jv)); auto. }
    unfold clustered in CL. rewrite existsb_exists. split.
    - intros (t & Jt & Q). apply existsb_exists in Q as (b & Jb & Q).
      assert (Jd : In (map bt_fac (bases t)) (tunable_clusters s)) by (unfold tunable_clusters; apply in_map_iff; eauto).
      destruct (F2_in_r _ _ _ CL _ Jd) as (c & Jc & F). destruct (F2_in_r _ _ _ F (bt_fac b)) as (f & Jf & T). { apply in_map; auto. }
      exists c, f. splits; auto. apply (AS f b); auto. apply in_concat; eauto.
    - intros (c & f & Jc & Jf & Q). destruct (F2_in_l _ _ _ CL _ Jc) as (d & Jd & F). destruct (F2_in_l _ _ _ F _ Jf) as (k & Jk & T).
      unfold tunable_clusters in Jd. apply in_map_iff in Jd as (t & <- & Jt). apply in_map_iff in Jk as (b & <- & Jb). exists t. split; auto. apply existsb_exists. exists b. split; auto.
      apply (AS f b); auto. apply in_concat; eauto.
  Qed.

  (** {1 No evidence} *)
  Theorem C46_conditional_unobserved : forall src e copy, source src -> (forall v, ~ seen src v) -> crf_ctor e src copy = Thr (r_empty (r_h src) (r_top src)).
  Proof.
    intros src e copy S NS. pose proof (source_coh src S) as CS. unfold crf_ctor, crf_absorb.
    destruct (keys (gsize (r_g src)) (g_ev (r_g src))) as [|k ks] eqn:K; auto. exfalso.
    destruct (proj2 (no_seen False src CS)) as (v & Q). rewrite K. discriminate. apply (NS v Q).
  Qed.

  (** {1 The construction}

      The hypotheses on the source are those of C46 for random fields, and: its
      variables have different names. It throws when a tunable factor has only
      observed variables; otherwise the field made has the contents, the clusters
      and the weights of the source, and its own factors or those of the source. *)
  Theorem C46_conditional_throws_partial : forall src e copy, source src -> env_ok e ->
    no_lone_variable src -> all_listed src -> clear_sharing src -> distinct_names src ->
    tunable_all_seen src -> exists s, crf_ctor e src copy = Thr s.
  Proof.
    intros src e copy S E NL AL CL DN TS. pose proof (source_coh src S) as CS. pose proof (ch_r _ _ CS) as RS.
    assert (K : keys (gsize (r_g src)) (g_ev (r_g src)) <> []).
    { apply (no_seen False src CS). destruct TS as (c & f & Jc & Jf & Q). destruct (f_vars (r_h src f)) as [|v l] eqn:FV; [|exists v; apply Q; simpl; auto].
      exfalso. destruct (built_solid _ (ri_built _ RS f)) as ((NE & _) & _). apply NE. exact FV. }
    destruct (cond_make False src CS copy DN NL) with (e := e) as (s0 & done & Q & CY & CC & QC); auto.
    { intros f J. apply in_or_app. destruct (AL f J) as [J'|(c & Jc & Jf)]; auto. right. apply in_concat. eauto. }
    { apply clear_unambiguous; auto. }
    pose proof (rreach_full True _ _ s0 (ri_built _ RS) (rreach_mono _ _ _ (steady True) s0 (fun _ _ X => proj1 X) (cy_reach _ _ _ _ CY))) as [C T _].
    pose proof (replaces_case s0 C T) as X. rewrite (proj2 (seen_copied False src copy done s0 CS CY CC) TS) in X. rewrite X in QC. eauto.
  Qed.
  Theorem C46_conditional_partial : forall src e copy, source src -> env_ok e ->
    no_lone_variable src -> all_listed src -> clear_sharing src -> distinct_names src ->
    (exists v, seen src v) -> ~ tunable_all_seen src ->
    exists c, crf_ctor e src copy = Ret c (c_r c) /\
      same_content src (c_r c) /\
      Forall2 (Forall2 (tuned_as (r_h src) (r_h (c_r c)))) (tunable_clusters src) (tunable_clusters (c_r c)) /\
      get_weights (c_r c) = get_weights src /\
      (forall f, f < r_top src -> r_h (c_r c) f = r_h src f) /\
      (forall f, In f (g_all (r_g src)) -> f < r_top src) /\
      (forall k, In k (g_all (r_g (c_r c))) -> if copy then r_top src <= k else In k (g_all (r_g src))).
  Proof.
    intros src e copy S E NL AL CL DN SE TS. pose proof (source_coh src S) as CS. pose proof (ch_r _ _ CS) as RS.
    apply (no_seen False src CS) in SE.
    destruct (cond_make False src CS copy DN NL) with (e := e) as (s0 & done & Q & CY & CC & QC); auto.
    { intros f J. apply in_or_app. destruct (AL f J) as [J'|(c & Jc & Jf)]; auto. right. apply in_concat. eauto. }
    { apply clear_unambiguous; auto. }
    pose proof (rreach_full True _ _ s0 (ri_built _ RS) (rreach_mono _ _ _ (steady True) s0 (fun _ _ X => proj1 X) (cy_reach _ _ _ _ CY))) as [C T _].
    pose proof (replaces_case s0 C T) as X. destruct (existsb _ (r_tuners s0)) eqn:EX. { exfalso. apply TS. apply (seen_copied False src copy done s0 CS CY CC). auto. }
    destruct X as (ts & X). rewrite X in QC. eexists. split; [exact QC|]. cbn [c_r].
    pose proof QC as QF. apply crf_ctor_full in QF as (C' & _ & _ & _); auto; [|apply RS].
    pose proof (replace_clusters s0 ts X) as RC.
    assert (CC' : clustered src copy (set_tuners s0 ts) (tunable_clusters src)). { unfold clustered in *. rewrite RC. exact CC. }
    split. { exact (copied_same _ _ _ _ _ CS CY). } split.
    { eapply F2_mono; [|exact CC']. intros c d _ _ F. eapply F2_mono; [|exact F]. intros f k _ _ Z. exact (ttwin_tuned _ _ _ _ _ Z). }
    split. { eapply cluster_weights; eauto. apply (ch_r _ _ C'). }
    split. { apply (cy_heap _ _ _ _ CY). } split. { apply (ri_top _ RS). }
    intros k Jk. destruct (cy_facs _ _ _ _ CY) as [Pd F]. apply (F2_in_r _ _ _ F) in Jk as (f & Jf & (_ & _ & Y)).
    unfold mark in Y. destruct copy; auto. subst. eapply Permutation_in; eauto.
  Qed.

  (** {1 The same distribution} *)
  Theorem C46_conditional_distribution_partial : forall src e copy, source src -> env_ok e ->
    no_lone_variable src -> all_listed src -> clear_sharing src -> distinct_names src -> (exists v, seen src v) -> ~ tunable_all_seen src ->
    exists c, crf_ctor e src copy = Ret c (c_r c) /\ forall v j, In v (sp_vars (contents src)) ->
      marginal (weight (r_h (c_r c)) (contents (c_r c))) (contents (c_r c)) v j = marginal (weight (r_h src) (contents src)) (contents src) v j.
  Proof.
    intros src e copy S E NL AL CL DN SE TS. pose proof (source_coh src S) as CS.
    destruct (C46_conditional_partial src e copy S E NL AL CL DN SE TS) as (c & Q & SC & _). exists c. split; auto.
    pose proof Q as QF. apply crf_ctor_full in QF as (C' & _ & _ & _); auto; try apply (ch_r _ _ CS).
    destruct (content_parts OK _ _ _ _ CS C' SC) as (G & ND & FV & PV & EV & l & PL & TW). intros v j J. eapply (twins_marginal OK); eauto.
  Qed.
End P.

(** {1 Examples} *)
Definition distinct_namesb {N : num} (s : rst (N:=N)) : bool :=
  forallb (fun v => forallb (fun w => negb (String.eqb (vname v) (vname w)) || same_instance v w) (g_vars (r_g s))) (g_vars (r_g s)).
Lemma distinct_namesb_ok {N : num} (s : rst (N:=N)) : distinct_namesb s = true -> distinct_names s.
Proof.
  unfold distinct_namesb. rewrite forallb_forall. intros Q v w Jv Jw E. specialize (Q v Jv). rewrite forallb_forall in Q. specialize (Q w Jw).
  rewrite E, String.eqb_refl in Q. apply same_instance_spec. exact Q.
Qed.
Definition seenb {N : num} (s : rst (N:=N)) (v : var) : bool :=
  existsb (fun p => same_instance (snd p) v && match g_ev (r_g s) (fst p) with Some _ => true | None => false end) (combine (seq 0 (gsize (r_g s))) (g_vars (r_g s))).
Definition unseen_tunables {N : num} (s : rst (N:=N)) : bool :=
  forallb (forallb (fun f => existsb (fun v => negb (seenb s v)) (f_vars (r_h s f)))) (tunable_clusters s).
Lemma seenb_spec {N : num} (s : rst (N:=N)) v : seenb s v = true <-> seen s v.
Proof.
  unfold seenb. rewrite existsb_exists. split.
  - intros ([a w] & J & Q). cbn [fst snd] in Q. apply andb_true_iff in Q as [Q1 Q2]. apply same_instance_spec in Q1. subst w.
    apply combine_seq_In in J as (j & -> & V). cbn [plus] in *. destruct (g_ev (r_g s) j) as [k|] eqn:E; [|discriminate]. exists k, j. split; auto.
  - intros (k & a & V & E). exists (a, v). split. apply combine_seq_In. exists a. auto. cbn [fst snd]. rewrite E, andb_true_r. apply same_instance_spec. reflexivity.
Qed.
Lemma unseen_tunables_ok {N : num} (s : rst (N:=N)) : unseen_tunables s = true -> ~ tunable_all_seen s.
Proof.
  unfold unseen_tunables. rewrite forallb_forall. intros Q (c & f & Jc & Jf & A). apply Q in Jc. rewrite forallb_forall in Jc. apply Jc in Jf.
  apply existsb_exists in Jf as (v & Jv & X). apply A, seenb_spec in Jv. rewrite Jv in X. discriminate.
Qed.

(** from a random field: the chain of C49; B and C observed, with tunable factors
    between hidden and observed variables *)
Lemma field_source : source field_state.
Proof. eapply SRC_field; [apply gH_built|]. exact (alert_careful _ _ _ field_reach). Qed.
Example C46_conditional_example : exists c, crf_ctor env_rev field_state true = Ret c (c_r c) /\ same_content field_state (c_r c) /\ get_weights (c_r c) = get_weights field_state.
Proof.
  destruct (C46_conditional_partial field_state env_rev true field_source env_rev_ok field_lone field_listed field_clear) as (c & Q1 & Q2 & _ & Q3 & _).
  - apply distinct_namesb_ok. vm_compute. reflexivity.
  - exists exE. apply seenb_spec. vm_compute. reflexivity.
  - apply unseen_tunables_ok. vm_compute. reflexivity.
  - exists c. split; [exact Q1|]. split; [exact Q2|exact Q3].
Qed.
Example C46_conditional_distribution_example : exists c, crf_ctor env_rev field_state true = Ret c (c_r c) /\
  forall j, marginal (weight (r_h (c_r c)) (contents (c_r c))) (contents (c_r c)) exC j = marginal (weight (r_h field_state) (contents field_state)) (contents field_state) exC j.
Proof.
  destruct (C46_conditional_distribution_partial QcNum_ok field_state env_rev true field_source env_rev_ok field_lone field_listed field_clear) as (c & Q1 & Q2).
  - apply distinct_namesb_ok. vm_compute. reflexivity.
  - exists exE. apply seenb_spec. vm_compute. reflexivity.
  - apply unseen_tunables_ok. vm_compute. reflexivity.
  - exists c. split; [exact Q1|]. intros j. apply Q2. vm_compute. auto.
Qed.
(** the copy of a conditional random field, after evidences, weights, gradients, samples *)
Lemma cond_source : source (c_r (snd cond_state)).
Proof. apply SRC_cond. assert (Q : fst cond_state = false) by (vm_compute; reflexivity). rewrite <- Q. exact (proj1 (proper_lives _ _ cond_proper)). Qed.
Example C46_conditional_copy_example : exists c, crf_ctor env_rev (c_r (snd cond_state)) false = Ret c (c_r c) /\ same_content (c_r (snd cond_state)) (c_r c).
Proof.
  destruct (C46_conditional_partial (c_r (snd cond_state)) env_rev false cond_source env_rev_ok) as (c & Q1 & Q2 & _).
  - apply no_lone_variableb_ok. vm_compute. reflexivity.
  - apply all_listedb_ok. vm_compute. reflexivity.
  - apply (clearb_ok QcNum_ok). { exact (ri_built _ (ch_r _ _ (source_coh _ cond_source))). } vm_compute. reflexivity.
  - apply distinct_namesb_ok. vm_compute. reflexivity.
  - exists exB. apply seenb_spec. vm_compute. reflexivity.
  - apply unseen_tunables_ok. vm_compute. reflexivity.
  - exists c. split; [exact Q1|exact Q2].
Qed.
(** no evidence; both variables of a tunable factor observed *)
Example C46_conditional_unobserved_example : source (rruns (r_empty kH 6) [RTun (Some 0) None]) /\ forall v, ~ seen (rruns (r_empty kH 6) [RTun (Some 0) None]) v.
Proof.
  split. { eapply SRC_field; [apply kH_built|]. apply k_reach. vm_compute. reflexivity. }
  intros v (k & a & V & E). vm_compute in E. discriminate.
Qed.
Example C46_conditional_throws_example : exists s, crf_ctor env_id (rruns (r_empty kH 6) [RTun (Some 0) None; RTun (Some 3) None; RGraph (OSet exA 0); RGraph (OSet exC 1)]) true = Thr s.
Proof.
  set (src := rruns (r_empty kH 6) [RTun (Some 0) None; RTun (Some 3) None; RGraph (OSet exA 0); RGraph (OSet exC 1)]).
  assert (S : source src). { eapply SRC_field; [apply kH_built|]. apply k_reach. vm_compute. reflexivity. }
  apply (C46_conditional_throws_partial src env_id true S env_id_ok).
  - apply no_lone_variableb_ok. vm_compute. reflexivity.
  - apply all_listedb_ok. vm_compute. reflexivity.
  - apply (clearb_ok QcNum_ok). { exact (ri_built _ (ch_r _ _ (source_coh _ S))). } vm_compute. reflexivity.
  - apply distinct_namesb_ok. vm_compute. reflexivity.
  - exists [0], 0. split. { vm_compute. auto. } split. { simpl. auto. }
    assert (FV : f_vars (r_h src 0) = [exA; exC]) by (vm_compute; reflexivity). rewrite FV. intros v [<-|[<-|[]]]; apply seenb_spec; vm_compute; reflexivity.
Qed.

(** {1 Two variables of the same name}

    The evidence of the source is given to a variable found by its name: with two
    variables of the same name and different sizes, it is given to the first. *)
Definition exA3 : var := mkVar 9 "A" 3.
Definition nH (f : nat) : func QcNum :=
  match f with
  | 0 => table [exA] [([0], q 1 1); ([1], q 3 1)]
  | _ => table [exA3] [([0], q 1 1); ([1], q 3 1); ([2], q 1 1)]
  end.
Lemma nH_built f : built (nH f).
Proof.
  assert (made exA3) by (exists 9, 3, "A"%string; reflexivity).
  destruct f as [|f]; apply table_built; repeat constructor; auto using exA_made.
Qed.
Theorem C46_conditional_names_refuted : exists (src : rst (N:=QcNum)) c, source src /\ no_lone_variable src /\ all_listed src /\ clear_sharing src /\ ~ tunable_all_seen src /\
  crf_ctor env_id src true = Ret c (c_r c) /\ evidence (r_g src) exA3 1 /\ ~ seen (c_r c) exA3 /\ evidence (r_g (c_r c)) exA 1.
Proof.
  set (src := rruns (r_empty nH 2) [RConst (Some 0); RConst (Some 1); RGraph (OSet exA3 1)]). exists src, (crf_of (crf_ctor env_id src true)).
  assert (S : source src). { eapply SRC_field; [apply nH_built|]. apply steady_careful. apply rruns_steady. constructor. vm_compute. reflexivity. }
  split; [exact S|]. split; [apply no_lone_variableb_ok; vm_compute; reflexivity|]. split; [apply all_listedb_ok; vm_compute; reflexivity|].
  split. { apply (clearb_ok QcNum_ok). { exact (ri_built _ (ch_r _ _ (source_coh _ S))). } vm_compute. reflexivity. }
  split; [apply unseen_tunables_ok; vm_compute; reflexivity|]. split.
  { assert (X : rdone (crf_ctor env_id src true) && negb (rthrew (crf_ctor env_id src true)) = true) by (vm_compute; reflexivity).
    destruct (crf_ctor env_id src true) as [c s|s| | |] eqn:Q; try discriminate X. cbn [crf_of].
    apply crf_ctor_full in Q as (_ & _ & _ & ->); auto. exact (ri_built _ (ch_r _ _ (source_coh _ S))). apply env_id_ok. exact (ch_r _ _ (source_coh _ S)). }
  split. { exists 1. split; vm_compute; reflexivity. }
  split. { intros Z. apply seenb_spec in Z. vm_compute in Z. discriminate Z. }
  exists 0. split; vm_compute; reflexivity.
Qed.

Print Assumptions C46_conditional_unobserved.
Print Assumptions C46_conditional_throws_partial.
Print Assumptions C46_conditional_partial.
Print Assumptions C46_conditional_distribution_partial.
Print Assumptions C46_conditional_names_refuted.
