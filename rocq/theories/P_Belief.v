(** Properties C22, C23, C25 - C28: answers of the queries, compared with sums
    and maxima over all the assignments of the variables (BeliefSpec.v). The
    histories are any sequences of calls of the API, each one with arbitrary
    iteration orders of the hash containers and an arbitrary schedule of the
    threads, that respect [proper_use]. *)
From Coq Require Import String List Arith Bool Lia Permutation Relations QArith Qcanon Field.
From Verif Require Import Res Num Categoric Combs Func FuncProofs GroupProofs FactorProofs FactorApi Special SpecialProofs
  Graph GraphLemmas Clusters Belief Query GraphInv EvidInv BeliefInv BigOp Tree Cycle BPStep BPRun GraphSpec Hist
  P_Categoric P_Factor Demo P_Graph BeliefSpec Sums Exact BeliefHist Queries Rebuild BeliefDemo.
Import ListNotations.
Open Scope nat_scope.
Notation hidden := BeliefSpec.hidden.

Section P.
  Context {N : num} (OK : num_ok N).
  Variable H : nat -> func N.
  (** the factor objects are any objects the API can build *)
  Hypothesis HB : forall f, built (H f).
  Notation gst := (gst (N:=N)).
  Implicit Types s : gst.
  Local Notation HGd := (built_goods OK H HB).
  Local Notation HSd := (built_solids H HB).
  (** the variables, evidences and factors after a sequence of calls *)
  Notation model := (sp_run (fvars H)).

  (** {1 C22} *)

  (** The full property has no hypothesis on the shape of the factors. It is
      proved for the factors that are symmetric between hidden variables
      ([C22_exact_marginals_refuted] below for the others). *)
  Theorem C22_exact_marginals_partial : forall ops s e n v, reach H (proper_use H) ops s -> env_ok e -> 1 <= n ->
    symmetric H (model ops) -> positive (weight H (model ops)) (model ops) ->
    hidden (model ops) v -> tree_around H (model ops) v ->
    exists s', get_marginal H e v n s = Ret (map (marginal (weight H (model ops)) (model ops) v) (seq 0 (vsize v))) s'.
  Proof.
    intros ops s e n v R E Ln SY P Hv T. pose proof (reach_usable OK H HGd ops s R) as U.
    set (A := model ops) in *. pose proof U as [[C _] AB _ _].
    assert (EX : forall x, In x (all_asg (sp_vars A)) -> weight_swapped H A x = weight H A x) by (intros x; apply (symmetric_weight H s); auto).
    destruct (marginal_exact OK H HGd A e n s v U E Ln (symmetric_balanced H A SY)) as [s' Q]; auto.
    { eapply positive_ext; [|exact P]. intros; symmetry; auto. }
    exists s'. rewrite Q. f_equal. apply map_ext. intros j. apply marginal_ext. auto.
  Qed.

  Theorem C22_exact_marginals_by_name_partial : forall ops s e n name v, reach H (proper_use H) ops s -> env_ok e -> 1 <= n ->
    symmetric H (model ops) -> positive (weight H (model ops)) (model ops) ->
    sp_named (model ops) name = Some v -> hidden (model ops) v -> tree_around H (model ops) v ->
    exists s', get_marginal_name H e name n s = Ret (map (marginal (weight H (model ops)) (model ops) v) (seq 0 (vsize v))) s'.
  Proof.
    intros ops s e n name v R E Ln SY P Nm Hv T. pose proof (reach_usable OK H HGd ops s R) as [_ AB _ _].
    destruct (C22_exact_marginals_partial ops s e n v) as [s' Q]; auto. exists s'.
    unfold get_marginal_name. rewrite (sp_named_spec s _ name AB), Nm. exact Q.
  Qed.

  (** what is computed for all the factors between variables of equal sizes *)
  Theorem C22_transposed_marginals : forall ops s e n v, reach H (proper_use H) ops s -> env_ok e -> 1 <= n ->
    balanced H (model ops) -> positive (weight_swapped H (model ops)) (model ops) ->
    hidden (model ops) v -> tree_around H (model ops) v ->
    exists s', get_marginal H e v n s = Ret (map (marginal (weight_swapped H (model ops)) (model ops) v) (seq 0 (vsize v))) s'.
  Proof.
    intros ops s e n v R E Ln B P Hv T. apply (marginal_exact OK H HGd); auto. apply (reach_usable OK H HGd); auto.
  Qed.

  (** on every graph, also with cycles: a distribution *)
  Theorem C22_distribution : forall ops s e n v, reach H (proper_use H) ops s -> env_ok e -> 1 <= n ->
    balanced H (model ops) -> positive (weight_swapped H (model ops)) (model ops) -> hidden (model ops) v ->
    exists l s', get_marginal H e v n s = Ret l s' /\ length l = vsize v /\ (forall p, In p l -> (n0 <= p)%num) /\ sumL (fun p => p) l = n1.
  Proof.
    intros ops s e n v R E Ln B P Hv. pose proof (reach_usable OK H HGd ops s R) as U.
    destruct (marginal_hidden OK H HGd _ e SUM n s v U E Ln B P Hv) as (l & s' & _ & _ & _ & D & Q & _). exists l, s'. auto.
  Qed.

  (** {1 C23} *)
  (** [best]: some most probable assignment gives the value to the variable,
      and the value is the least with this property *)
  Theorem C23_exact_map_partial : forall ops s e n v, reach H (proper_use H) ops s -> env_ok e -> 1 <= n ->
    symmetric H (model ops) -> above_floor H (model ops) -> positive (weight H (model ops)) (model ops) ->
    hidden (model ops) v -> tree_around H (model ops) v ->
    exists j s', get_map H e v n s = Ret j s' /\
      (exists x, most_probable (weight H (model ops)) (model ops) x /\ val x v = j) /\
      (forall x, most_probable (weight H (model ops)) (model ops) x -> j <= val x v).
  Proof.
    intros ops s e n v R E Ln SY AF P Hv T. pose proof (reach_usable OK H HGd ops s R) as U.
    set (A := model ops) in *. pose proof U as [[C _] AB _ _].
    assert (EX : forall x, In x (all_asg (sp_vars A)) -> weight_swapped H A x = weight H A x) by (intros x; apply (symmetric_weight H s); auto).
    destruct (map_hidden OK H HGd A e n s v U E Ln (symmetric_balanced H A SY)) as (j & s' & Q & Bj); auto.
    { eapply positive_ext; [|exact P]. intros; symmetry; auto. }
    exists j, s'. split; auto. apply (best_ext _ (weight H A)) in Bj; auto.
  Qed.

  Theorem C23_hidden_set_map_partial : forall ops s e n, reach H (proper_use H) ops s -> env_ok e -> 1 <= n ->
    symmetric H (model ops) -> above_floor H (model ops) -> positive (weight H (model ops)) (model ops) ->
    (forall v, hidden (model ops) v -> tree_around H (model ops) v) ->
    forall x, most_probable (weight H (model ops)) (model ops) x ->
    (forall y, most_probable (weight H (model ops)) (model ops) y -> y = x) ->
    exists s', get_hidden_map H e n s = Ret (map (val x) (hidden_variables e s)) s'.
  Proof.
    intros ops s e n R E Ln SY AF P T x Mx Un. pose proof (reach_usable OK H HGd ops s R) as U.
    set (A := model ops) in *. pose proof U as [[C _] AB _ _].
    assert (EX : forall x, In x (all_asg (sp_vars A)) -> weight_swapped H A x = weight H A x) by (intros y; apply (symmetric_weight H s); auto).
    destruct (hidden_map OK H HGd A e n s U E Ln (symmetric_balanced H A SY)) as (js & s' & Q & F); auto.
    { eapply positive_ext; [|exact P]. intros; symmetry; auto. }
    exists s'. rewrite Q. f_equal. clear Q. induction F as [|v j vs js Bj F IH]; auto. simpl. f_equal; auto.
    apply (best_ext _ (weight H A)) in Bj; auto. destruct Bj as [(y & My & <-) _]. rewrite (Un y My). auto.
  Qed.

  (** {1 C25} *)
  Theorem C25_observed_marginal_partial : forall ops s e n v o, reach H (proper_use H) ops s -> env_ok e -> 1 <= n ->
    balanced H (model ops) -> positive (weight_swapped H (model ops)) (model ops) ->
    In v (sp_vars (model ops)) -> sp_evidence (model ops) v = Some o ->
    exists s', get_marginal H e v n s = Ret (map (fun j => if Nat.eqb j o then n1 else n0) (seq 0 (vsize v))) s'.
  Proof.
    intros ops s e n v o R E Ln B P Iv Hv. pose proof (reach_usable OK H HGd ops s R) as U.
    destruct (marginal_observed OK H HGd _ e SUM n s v o U E Ln B P Iv Hv) as (s' & _ & _ & _ & _ & Q).
    exists s'. unfold get_marginal. destruct (Q e n E) as [Q1 Q2]. rewrite Q2. exact Q1.
  Qed.
  Theorem C25_observed_map_partial : forall ops s e n v o, reach H (proper_use H) ops s -> env_ok e -> 1 <= n ->
    balanced H (model ops) -> positive (weight_swapped H (model ops)) (model ops) ->
    In v (sp_vars (model ops)) -> sp_evidence (model ops) v = Some o ->
    exists s', get_map H e v n s = Ret o s'.
  Proof.
    intros ops s e n v o R E Ln B P Iv Hv. pose proof (reach_usable OK H HGd ops s R) as U.
    destruct (marginal_observed OK H HGd _ e MAP n s v o U E Ln B P Iv Hv) as (s' & _ & _ & _ & Lo & Q).
    exists s'. unfold get_map. destruct (Q e n E) as [Q1 Q2]. rewrite Q2, Q1. cbn [obind]. rewrite (hot_max OK); auto.
  Qed.

  (** {1 C26} *)
  Definition query (op : gop) : Prop := exists n, query_threads op = Some n.

  Lemma ends_state {B} (f : B -> answer) (o : out gst B) s s' : okeeps H s o -> ends (omap f o) s' -> keeps H s s'.
  Proof. intros K En. apply ends_omap in En as [-> |(b & ->)]; auto. Qed.
  Lemma query_keeps s e op s' : inv H s -> env_ok e -> query op -> ends (call H e op s) s' -> keeps H s s'.
  Proof.
    intros [C CS] E (n & Q) En. destruct op; try discriminate; simpl in En; (eapply ends_state; [|exact En]).
    - eapply get_marginal_keeps; eauto.
    - eapply get_marginal_name_keeps; eauto.
    - eapply get_map_keeps; eauto.
    - eapply get_map_name_keeps; eauto.
    - eapply get_hidden_map_keeps; eauto.
    - eapply get_joint_keeps; eauto.
    - eapply get_joint_names_keeps; eauto.
    - apply scoped_keeps. intros s1 K. eapply propagate_keeps; eauto. eapply keeps_core; eauto. eapply keeps_clus; eauto.
  Qed.

  (** a query, also when it throws, changes neither the variables nor the
      evidences nor the factors nor the clusters; no restriction on the model *)
  Theorem C26_queries_keep_the_model : forall ops s e op s', reach H no_failed_removal ops s -> env_ok e -> query op ->
    (call H e op s = Thr s' \/ exists a, call H e op s = Ret a s') ->
    g_vars s' = g_vars s /\ (forall v k, evidence s' v k <-> evidence s v k) /\ g_all s' = g_all s /\
    map cl_nodes (g_cl s') = map cl_nodes (g_cl s) /\
    (forall e', hidden_variables e' s' = hidden_variables e' s) /\ (forall e', observed_variables e' s' = observed_variables e' s).
  Proof.
    intros ops s e op s' R E Qo En. destruct (reach_abs H HSd no_failed_removal ops s (fun _ _ h => h) R) as [I AB].
    pose proof (query_keeps s e op s' I E Qo En) as K. splits; try apply K.
    - intros v k. unfold evidence. rewrite (kp_vars _ _ _ K), (kp_ev _ _ _ K). tauto.
    - intros e'. apply hidden_vars_keeps with (H := H). auto.
    - intros e'. unfold observed_variables, gsize. rewrite (kp_vars _ _ _ K), (kp_ev _ _ _ K). auto.
  Qed.

  (** the kind of propagation behind a query *)
  Definition query_kind (op : gop) : option kind :=
    match op with
    | OMarginal _ _ | OMarginalName _ _ | OJoint _ _ | OJointNames _ _ => Some SUM
    | OMap _ _ | OMapName _ _ | OHiddenMap _ => Some MAP
    | _ => None
    end.

  Lemma prop_loop_kind e pool k is : forall r s r' s', prop_loop H e pool k is r s = Ret r' s' -> pr_kind r' = pr_kind r.
  Proof.
    induction is as [|i is IH]; intros r s r' s' Q; cbn [prop_loop] in Q. injection Q as <- _; auto.
    destruct (prepare H e i s) as [? s1| | | |]; try discriminate. cbn [obind] in Q.
    destruct (lift (get_cl s1 i) s1) as [cl s2| | | |]; try discriminate. cbn [obind] in Q.
    destruct (message_passing H e pool k i s2) as [[|] s3| | | |]; try discriminate; cbn [obind] in Q.
    - apply IH in Q. exact Q.
    - destruct (loopy_propagate H e pool k i s3) as [d s4| | | |]; try discriminate. cbn [obind] in Q. apply IH in Q. exact Q.
  Qed.
  Lemma check_rest e k n s s' : check_propagation H e k n s = Ret tt s' -> at_rest k s'.
  Proof.
    unfold check_propagation. destruct (would_need s k) eqn:Wd.
    - unfold scoped_pool. destruct (set_pool_size n s) as [? s1| | | |] eqn:SP; try discriminate. cbn [obind].
      assert (Wd1 : would_need s1 k = true).
      { unfold set_pool_size in SP. destruct (g_pool s) as [p|]; try discriminate. destruct (n =? p)%nat; [inversion SP; subst; auto|].
        destruct (n =? 0)%nat; try discriminate. inversion SP; subst. exact Wd. }
      destruct (propagate H e k s1) as [? s2| | | |] eqn:PR; try discriminate. intros Z. inversion Z; subst; clear Z. unfold at_rest. simpl.
      unfold propagate in PR. rewrite Wd1 in PR. simpl in PR. destruct (g_pool s1) as [p|]; try discriminate.
      destruct (reset_messages e s1) as [? s3| | | |]; try discriminate. cbn [obind] in PR.
      destruct (prop_loop H e p k (seq 0 (length (g_cl s3))) (mkPR k true []) s3) as [r s4| | | |] eqn:PL; try discriminate. cbn [obind] in PR.
      inversion PR; subst; clear PR. exists r. split; auto. apply prop_loop_kind in PL. exact PL.
    - intros Z. inversion Z; subst; clear Z. unfold would_need in Wd. unfold at_rest. destruct (g_last s') as [r|]; [|discriminate]. exists r. split; auto.
      destruct (pr_kind r), k; auto; discriminate.
  Qed.

  (** the same query, with another number of threads *)
  Definition with_threads (op : gop) (n : nat) : gop :=
    match op with
    | OMarginal v _ => OMarginal v n | OMarginalName v _ => OMarginalName v n
    | OMap v _ => OMap v n | OMapName v _ => OMapName v n | OHiddenMap _ => OHiddenMap n
    | OJoint g _ => OJoint g n | OJointNames g _ => OJointNames g n
    | op => op
    end.

  (** a query checks the propagation, then computes its answer without changing the state *)
  Lemma query_shape op k : query_kind op = Some k -> forall e s, inv H s -> env_ok e ->
    (exists s', call H e op s = Thr s' /\ s' = s) \/ call H e op s = Undef \/
    exists ans : gst -> res answer, forall n s0, g_vars s0 = g_vars s -> call H e (with_threads op n) s0 =
      do (_, s1) <- check_propagation H e k n s0 ;; lift (ans s1) s1.
  Proof.
    assert (MQ : forall e kk v n s (f : list N -> answer), omap f (marginal_query H e kk v n s) =
      do (_, s1) <- check_propagation H e kk n s ;; lift (let* l := match locate s1 v with None => Throw | Some (a, l) => marginal_at e s1 a l end in Ok (f l)) s1).
    { intros. unfold omap, marginal_query. destruct (check_propagation H e kk n s) as [? s1| | | |]; auto. cbn [obind].
      destruct (locate s1 v) as [[z l]|]; auto. destruct (marginal_at e s1 z l); auto. }
    assert (MP : forall e v n s, omap AVal (get_map H e v n s) =
      do (_, s1) <- check_propagation H e MAP n s ;; lift (let* l := match locate s1 v with None => Throw | Some (a, l) => marginal_at e s1 a l end in let* j := find_max l in Ok (AVal j)) s1).
    { intros. unfold omap, get_map, marginal_query. destruct (check_propagation H e MAP n s) as [? s1| | | |]; auto. cbn [obind].
      destruct (locate s1 v) as [[z l]|]; auto. destruct (marginal_at e s1 z l) as [m| | | |]; auto. cbn. destruct (find_max m); auto. }
    assert (JT : forall e g n s, omap AFac (get_joint H e g n s) =
      do (_, s1) <- check_propagation H e SUM n s ;; lift (
        let* locs := rmap (fun v => match locate s1 v with Some l => Ok l | None => Throw end) (g_soup g) in
        let* f := (let inside := map fst locs in
          let* (cs, inds) := rfold (contrib_step e s1 inside) locs ([], []) in
          let* fs := rmap (contrib_factor H s1 inds) (permute (e_ord e (gsize s1)) cs) in
          let* f := factor_merge (permute (e_ord e (gsize s1))) fs in
          clone_permuted f g) in Ok (AFac f)) s1).
    { intros. unfold omap, get_joint. destruct (check_propagation H e SUM n s) as [? s1| | | |]; auto. cbn [obind].
      destruct (rmap _ (g_soup g)) as [locs| | | |]; auto. cbn [obind rbind lift]. cbv zeta.
      destruct (rfold _ locs ([], [])) as [[cs inds]| | | |]; auto. cbn [rbind].
      destruct (rmap _ (permute _ cs)) as [fs| | | |]; auto. cbn [rbind].
      destruct (factor_merge _ fs) as [f| | | |]; auto. cbn [rbind]. destruct (clone_permuted f g); auto. }
    intros Qk e s I E. destruct op; try discriminate; injection Qk as <-; simpl.
    - right; right. eexists. intros n s0 _. apply MQ.
    - unfold get_marginal_name. destruct (find_variable s n) as [v| | | |] eqn:F; simpl; auto.
      + right; right. eexists. intros m s0 E0. unfold get_marginal_name. replace (find_variable s0 n) with (find_variable s n) by (unfold find_variable; rewrite E0; auto).
        rewrite F. simpl. apply MQ.
      + left. eauto.
      + unfold find_variable in F. destruct (find _ _); discriminate.
      + unfold find_variable in F. destruct (find _ _); discriminate.
    - right; right. eexists. intros n s0 _. apply MP.
    - unfold get_map_name. destruct (find_variable s n) as [v| | | |] eqn:F; simpl; auto.
      + right; right. eexists. intros m s0 E0. unfold get_map_name. replace (find_variable s0 n) with (find_variable s n) by (unfold find_variable; rewrite E0; auto).
        rewrite F. simpl. apply MP.
      + left. eauto.
      + unfold find_variable in F. destruct (find _ _); discriminate.
      + unfold find_variable in F. destruct (find _ _); discriminate.
    - right; right. eexists (fun s1 => let* l := _ in Ok (AVals l)). intros n s0 _. unfold omap, get_hidden_map.
      destruct (check_propagation H e MAP n s0) as [? s1| | | |]; auto. cbn [obind].
      instantiate (1 := rmap (fun v => match find_node s1 v with None => UB | Some a => let* m := incoming e s1 a in let* p := get_probabilities m in find_max p end) (hidden_variables e s1)).
      destruct (rmap _ _); auto.
    - right; right. eexists. intros n s0 _. apply JT.
    - unfold get_joint_names. destruct (rmap (find_variable s) ns) as [vs| | | |] eqn:F; simpl; auto.
      + destruct (group_ctor vs) as [g| | | |] eqn:G; simpl; auto.
        * right; right. eexists. intros m s0 E0. unfold get_joint_names.
          replace (rmap (find_variable s0) ns) with (rmap (find_variable s) ns) by (unfold find_variable; rewrite E0; auto).
          rewrite F. simpl. rewrite G. simpl. apply JT.
        * left. eauto.
        * exfalso. clear - G. unfold group_ctor in G. repeat match goal with H : context [match ?x with _ => _ end] |- _ => destruct x end; discriminate.
        * exfalso. clear - G. unfold group_ctor in G. repeat match goal with H : context [match ?x with _ => _ end] |- _ => destruct x end; discriminate.
      + left. eauto.
      + exfalso. clear - F. revert F. induction ns as [|n ns IH]; simpl; try discriminate. unfold find_variable at 1. destruct (find _ _); try discriminate. simpl. destruct (rmap _ _); try discriminate; auto.
      + exfalso. clear - F. revert F. induction ns as [|n ns IH]; simpl; try discriminate. unfold find_variable at 1. destruct (find _ _); try discriminate. simpl. destruct (rmap _ _); try discriminate; auto.
  Qed.

  (** any sequence of queries based on the same propagation, also failed ones *)
  Inductive asked (k : kind) : gst -> gst -> Prop :=
  | AK_none s : asked k s s
  | AK_more s s1 s2 e op : asked k s s1 -> env_ok e -> query_kind op = Some k ->
      (call H e op s1 = Thr s2 \/ exists a, call H e op s1 = Ret a s2) -> asked k s s2.

  Lemma with_own op k : query_kind op = Some k -> exists n, with_threads op n = op.
  Proof. destruct op; try discriminate; simpl; intros _; eexists; reflexivity. Qed.
  Lemma rest_query e op k s s' : inv H s -> env_ok e -> at_rest k s -> query_kind op = Some k -> ends (call H e op s) s' -> s' = s.
  Proof.
    intros I E AR Qk En. destruct (query_shape op k Qk e s I E) as [(s1 & Q & ->)|[Q|(ans & Q)]].
    - rewrite Q in En. destruct En as [En|(b & En)]; inversion En; auto.
    - rewrite Q in En. destruct En as [En|(b & En)]; discriminate.
    - destruct (with_own op k Qk) as [n W]. specialize (Q n s eq_refl). rewrite W in Q. rewrite (at_rest_check H e k n s AR) in Q. cbn [obind] in Q.
      unfold ends in En. rewrite Q in En. eapply lift_state; eauto.
  Qed.
  (** no restriction on the model: also with cycles, also with impossible evidences *)
  Theorem C26_repeated_query_partial : forall ops s e op k a s1 s2 n, reach H no_failed_removal ops s -> env_ok e -> query_kind op = Some k ->
    call H e op s = Ret a s1 -> asked k s1 s2 -> call H e (with_threads op n) s2 = Ret a s2.
  Proof.
    intros ops s e op k a s1 s2 n R E Qk Q AS. destruct (reach_abs H HSd no_failed_removal ops s (fun _ _ h => h) R) as [I AB].
    assert (K : keeps H s s1).
    { apply (query_keeps s e op s1 I E); [|right; eauto]. destruct op; try discriminate; simpl; eexists; reflexivity. }
    pose proof (keeps_inv H s s1 K I) as I1.
    destruct (query_shape op k Qk e s I E) as [(s' & Q' & ->)|[Q'|(ans & SH)]]; [congruence|congruence|].
    destruct (with_own op k Qk) as [m W]. pose proof (SH m s eq_refl) as Q'. rewrite W, Q in Q'.
    destruct (check_propagation H e k m s) as [[] s'| | | |] eqn:CH; try discriminate. cbn [obind] in Q'.
    assert (s' = s1) by (symmetry; eapply lift_state; right; eauto). subst s'. pose proof (check_rest e k m s s1 CH) as AR.
    assert (E2 : s2 = s1).
    { clear - AS AR I1. induction AS as [|s s1 s2 e op AS IH E Qk En]; auto. rewrite (rest_query e op k s1 s2) ; auto.
      - rewrite IH; auto.
      - rewrite IH; auto. }
    subst s2. rewrite (SH n s1) by apply K. rewrite (at_rest_check H e k n s1 AR). cbn [obind]. congruence.
  Qed.

  (** {1 C27} *)
  Lemma model_facts ops s : reach H (proper_use H) ops s -> NoDup (sp_vars (model ops)) /\
    (forall f v, In f (sp_facs (model ops)) -> In v (f_vars (H f)) -> In v (sp_vars (model ops))).
  Proof.
    intros R. pose proof (reach_usable OK H HGd ops s R) as [[C _] AB _ _]. rewrite <- (ab_vars _ _ AB), <- (ab_all _ _ AB). split.
    - apply NoDup_vkey_NoDup. apply C.
    - intros f v If Iv. destruct (co_fac _ _ _ C f If) as [(w & a & E & Ha & _)|(va & vb & a & b & c & E & Ha & Hb & _)]; unfold fvars in E; rewrite E in Iv.
      + destruct Iv as [<-|[]]. eapply nth_error_In; eauto.
      + destruct Iv as [<-|[<-|[]]]; eapply nth_error_In; eauto.
  Qed.

  (** two histories, for instance the second one building the model from
      scratch, that lead to the same variables, factors and evidences *)
  Theorem C27_same_answers_partial : forall ops s ops' s' e e' n n' v k,
    reach H (proper_use H) ops s -> reach H (proper_use H) ops' s' -> same_model (model ops) (model ops') ->
    env_ok e -> env_ok e' -> 1 <= n -> 1 <= n' ->
    balanced H (model ops) -> positive (weight_swapped H (model ops)) (model ops) -> hidden (model ops) v -> tree_around H (model ops) v ->
    (k = MAP -> above_floor H (model ops)) ->
    exists l s1 s1', marginal_query H e k v n s = Ret l s1 /\ marginal_query H e' k v n' s' = Ret l s1'.
  Proof.
    intros ops s ops' s' e e' n n' v k R R' SM E E' Ln Ln' B P Hv T AF.
    pose proof (reach_usable OK H HGd ops s R) as U. pose proof (reach_usable OK H HGd ops' s' R') as U'.
    destruct (model_facts ops s R) as [ND FV]. set (A := model ops) in *. set (A' := model ops') in *.
    destruct (marginal_hidden OK H HGd A e k n s v U E Ln B P Hv) as (l & s1 & U1 & _ & _ & _ & Q & _ & X).
    destruct (marginal_hidden OK H HGd A' e' k n' s' v U' E' Ln') as (l' & s1' & _ & _ & _ & _ & Q' & _ & X').
    { eapply same_balanced; eauto. } { eapply same_positive; eauto. } { apply (same_hidden A A'); auto. }
    destruct (X T AF) as [El _]. destruct (X' (proj2 (same_tree H A A' SM v) T) (fun Ek => same_floor H A A' SM (AF Ek))) as [El' _].
    exists l, s1, s1'. split; auto. rewrite Q'. f_equal. rewrite El, El'.
    assert (TT : forall j, total A' k (weight_swapped H A') (takes v j) = total A k (weight_swapped H A) (takes v j)).
    { intros j. apply (same_total OK); auto; [|apply Hv]. intros x. pose proof U as [[C _] AB _ _]. apply (w_spec_nonneg OK H HGd s); auto. eapply usable_evened; eauto. }
    apply map_ext. intros j. rewrite TT. f_equal. apply sumL_ext. intros i _. apply TT.
  Qed.
  Theorem C27_same_marginal_partial : forall ops s ops' s' e e' n n' v,
    reach H (proper_use H) ops s -> reach H (proper_use H) ops' s' -> same_model (model ops) (model ops') ->
    env_ok e -> env_ok e' -> 1 <= n -> 1 <= n' ->
    balanced H (model ops) -> positive (weight_swapped H (model ops)) (model ops) -> hidden (model ops) v -> tree_around H (model ops) v ->
    exists l s1 s1', get_marginal H e v n s = Ret l s1 /\ get_marginal H e' v n' s' = Ret l s1'.
  Proof. intros. eapply C27_same_answers_partial; eauto. discriminate. Qed.
  Theorem C27_same_map_partial : forall ops s ops' s' e e' n n' v,
    reach H (proper_use H) ops s -> reach H (proper_use H) ops' s' -> same_model (model ops) (model ops') ->
    env_ok e -> env_ok e' -> 1 <= n -> 1 <= n' ->
    balanced H (model ops) -> above_floor H (model ops) -> positive (weight_swapped H (model ops)) (model ops) -> hidden (model ops) v -> tree_around H (model ops) v ->
    exists j s1 s1', get_map H e v n s = Ret j s1 /\ get_map H e' v n' s' = Ret j s1'.
  Proof.
    intros ops s ops' s' e e' n n' v R R' SM E E' Ln Ln' B AF P Hv T.
    destruct (C27_same_answers_partial ops s ops' s' e e' n n' v MAP) as (l & s1 & s1' & Q & Q'); auto.
    pose proof (reach_usable OK H HGd ops s R) as U.
    destruct (marginal_hidden OK H HGd _ e MAP n s v U E Ln B P Hv) as (l0 & s0 & _ & _ & _ & (_ & _ & Ls) & Q0 & _).
    rewrite Q in Q0. injection Q0 as <- <-.
    assert (NE : l <> []).
    { intros ->. simpl in Ls. pose proof (nlt_0_1 OK) as L01. unfold sumL in Ls. simpl in Ls. rewrite <- Ls in L01. eapply (nlt_irr OK); eauto. }
    destruct (find_max_ok OK l NE) as (j & Ej & _). exists j, s1, s1'. unfold get_map. rewrite Q, Q'. cbn [obind]. rewrite Ej. auto.
  Qed.

  (** queries of any kind do not change the answers on trees *)
  Lemma queries_same_model ops qs : Forall query qs -> model (ops ++ qs) = model ops.
  Proof.
    revert ops. induction qs as [|q qs IH]; intros ops F. rewrite app_nil_r; auto. inversion F as [|? ? (n & Q) F']; subst.
    change (q :: qs) with ([q] ++ qs). rewrite app_assoc, IH by auto. rewrite (sp_run_snoc H). unfold sp_next. destruct q; try discriminate; reflexivity.
  Qed.
  Theorem C26_interleaved_queries_partial : forall ops qs s s' e e' n n' v k,
    reach H (proper_use H) ops s -> reach H (proper_use H) (ops ++ qs) s' -> Forall query qs ->
    env_ok e -> env_ok e' -> 1 <= n -> 1 <= n' ->
    balanced H (model ops) -> positive (weight_swapped H (model ops)) (model ops) -> hidden (model ops) v -> tree_around H (model ops) v ->
    (k = MAP -> above_floor H (model ops)) ->
    exists l s1 s1', marginal_query H e k v n s = Ret l s1 /\ marginal_query H e' k v n' s' = Ret l s1'.
  Proof.
    intros. eapply C27_same_answers_partial; eauto. rewrite queries_same_model by auto. apply same_model_refl.
  Qed.

  (** {1 C28} *)
  Lemma Forall2_map_ex {X Y} (P : X -> Y -> Prop) l : (forall x, In x l -> exists y, P x y) -> exists l', Forall2 P l l'.
  Proof.
    induction l as [|a l IH]; intros Q. exists []; auto. destruct (Q a (or_introl eq_refl)) as [b Pb].
    destruct IH as [l' F]. intros; apply Q; simpl; auto. exists (b :: l'). auto.
  Qed.
  (** the structures reported by the last propagation are those of the connected
      components of the hidden variables: the flag says whether there are
      cycles, the size is the number of variables *)
  Theorem C28_tree_detection_partial : forall ops s r, reach H (proper_use H) ops s -> g_last s = Some r ->
    exists parts : list (list var),
      NoDup (concat parts) /\ (forall v, hidden (model ops) v <-> In v (concat parts)) /\
      (forall p v w, In p parts -> In v p -> (In w p <-> hidden_linked H (model ops) v w)) /\
      Forall2 (fun p t => p <> [] /\ (fst t = true <-> forall v, In v p -> tree_around H (model ops) v) /\ snd t = length p) parts (pr_structs r).
  Proof.
    intros ops s r R El. pose proof (reach_usable OK H HGd ops s R) as [_ _ _ [_ CA]].
    destruct (CA r El) as (_ & s0 & x & ls & [C0 CL0 EV0 AB XR XO XP LS] & ST & F). set (A := model ops) in *.
    assert (PT : exists parts, Forall2 (Forall2 (var_at s0)) ls parts).
    { apply Forall2_map_ex. intros S IS. apply map_vars. intros a Ia. apply var_at_ex.
      assert (In a (hid s0)) by (eapply Permutation_in; [apply (cp_perm _ _ _ LS)|]; apply in_concat; eauto).
      apply hid_In in H0. tauto. }
    destruct PT as [parts PT].
    assert (INJ : forall a b v, var_at s0 a v -> var_at s0 b v -> a = b) by (intros a b v Q1 Q2; eapply at_inj; eauto).
    assert (CC : Forall2 (var_at s0) (concat ls) (concat parts)) by (clear - PT; induction PT; simpl; auto using Forall2_app).
    assert (IN1 : forall S p a v, Forall2 (var_at s0) S p -> var_at s0 a v -> (In a S <-> In v p)).
    { clear - INJ. intros S p a v F Hv. induction F as [|b w S p Hw F IH]; simpl. tauto. rewrite IH. split; intros [E|E]; auto; subst.
      left. eapply var_at_fun; eauto. left. eapply INJ; eauto. }
    exists parts. split; [|split; [|split]].
    - apply (Forall2_NoDup (var_at s0) (concat ls)); auto. eapply perm_NoDup; [apply (cp_perm _ _ _ LS)|apply hid_NoDup].
    - intros v. split.
      + intros Hv. destruct (hidden_node s0 A AB v Hv) as (a & Ha & Ih). apply (IN1 _ _ a v CC Ha). eapply Permutation_in; [symmetry; apply (cp_perm _ _ _ LS)|auto].
      + intros Iv. apply In_nth_error in Iv as [i Hi]. pose proof (Forall2_nth _ _ _ CC i) as Q. rewrite Hi in Q. destruct (nth_error (concat ls) i) as [a|] eqn:Ea; [|contradiction].
        apply (BeliefHist.hidden_at s0 A AB a v Q). eapply Permutation_in; [apply (cp_perm _ _ _ LS)|]. eapply nth_error_In; eauto.
    - intros p v w Ip Iv. apply In_nth_error in Ip as [i Hi]. pose proof (Forall2_nth _ _ _ PT i) as Q. rewrite Hi in Q. destruct (nth_error ls i) as [S|] eqn:ES; [|contradiction].
      assert (IS : In S ls) by (eapply nth_error_In; eauto).
      apply In_nth_error in Iv as [j Hj]. pose proof (Forall2_nth _ _ _ Q j) as Qj. rewrite Hj in Qj. destruct (nth_error S j) as [a|] eqn:Ea; [|contradiction].
      assert (Ia : In a S) by (eapply nth_error_In; eauto).
      split.
      + intros Iw. apply In_nth_error in Iw as [m Hm]. pose proof (Forall2_nth _ _ _ Q m) as Qm. rewrite Hm in Qm. destruct (nth_error S m) as [b|] eqn:Eb; [|contradiction].
        destruct (linked_at H s0 A C0 AB CL0 a b v Qj) as (w' & Hw' & Lw). { apply (cp_conn _ _ _ LS S); auto. eapply nth_error_In; eauto. }
        rewrite (var_at_fun _ _ _ _ Qm Hw'). auto.
      + intros Lw. destruct (at_linked H s0 A C0 AB CL0 v w a Lw Qj) as (b & Hb & Lb). apply (IN1 S p b w Q Hb).
        clear - Lb Ia IS LS. unfold linked in Lb. apply clos_rt_rt1n in Lb. induction Lb as [x|x y z (Q & _ & Iy) L IH]; auto. apply IH. eapply (cp_closed _ _ _ LS); eauto.
    - assert (NE : forall S, In S ls -> S <> []) by apply (cp_ne _ _ _ LS).
      assert (TR : forall S p a v, In S ls -> Forall2 (var_at s0) S p -> In a S -> var_at s0 a v -> (tree_around H A v <-> ~ exists c, cycle (eact s0) c /\ incl c S)).
      { intros S p a v IS _ Ia Ha. apply (tree_at H s0 A C0 AB CL0 ls S a v); auto. }
      clear - PT F NE TR. revert F. generalize (pr_structs r). induction PT as [|S p ls parts Q PT IH]; intros fl F; inversion F as [|? f ? fl' [CD SZ] F']; subst; constructor.
      + split; [|split].
        * intros ->. inversion Q; subst. eapply (NE []); simpl; auto.
        * rewrite (cd_shape _ _ _ _ _ _ CD). assert (S <> []) by (apply NE; simpl; auto). destruct S as [|a S]; [congruence|]. inversion Q as [|? v ? p' Hv Q']; subst. split.
          -- intros T w Iw. apply In_nth_error in Iw as [j Hj]. pose proof (Forall2_nth _ _ _ Q j) as Qj. rewrite Hj in Qj. destruct (nth_error (a :: S) j) as [b|] eqn:Eb; [|contradiction].
             eapply (TR (a :: S) (v :: p') b w); auto. simpl; auto. eapply nth_error_In; eauto.
          -- intros T. eapply (TR (a :: S) (v :: p') a v); simpl; auto. apply T. simpl; auto.
        * rewrite SZ. eapply Forall2_len; eauto.
      + apply IH; auto. intros; apply NE; simpl; auto. intros; eapply TR; simpl; eauto.
  Qed.

  (** a propagation always gives a result of the requested kind *)
  Theorem C28_propagation_reported_partial : forall ops s e b n, reach H (proper_use H) ops s -> env_ok e ->
    proper_use H (model ops) (OPropagate b n) ->
    exists s' r, call H e (OPropagate b n) s = Ret AUnit s' /\ g_last s' = Some r /\ pr_kind r = (if b then SUM else MAP).
  Proof.
    intros ops s e b n R E (_ & _ & Ln & B & P). pose proof (reach_usable OK H HGd ops s R) as U. set (k := if b then SUM else MAP).
    destruct (check_usable OK H HGd _ e k n s U E Ln B P) as (s' & r & Q & U' & El & (Ek & _) & K).
    exists s', r. split; auto. simpl. fold k. unfold check_propagation in Q. destruct (would_need s k) eqn:Wd.
    - rewrite Q. auto.
    - injection Q as <-. rewrite scoped_idle; auto. apply U.
  Qed.

  (** {1 C48} *)
  (** calls that change only the evidences, and queries *)
  Definition keeps_factors (op : gop) : Prop :=
    match op with OAdd _ => False | _ => True end.
  (** the two variables are reported in the same cluster *)
  Definition same_cluster s x y : Prop := exists cl, In cl (g_cl s) /\ in_cluster s cl x /\ in_cluster s cl y.

  Lemma same_cluster_linked ops s x y : reach H no_failed_removal ops s ->
    (same_cluster s x y <-> BeliefSpec.hidden (model ops) x /\ BeliefSpec.hidden (model ops) y /\ hidden_linked H (model ops) x y).
  Proof.
    intros R. destruct (reach_abs H HSd no_failed_removal ops s (fun _ _ h => h) R) as [[C CS] AB].
    destruct (C19_clusters_partial H HB ops s R) as (_ & C2 & C3).
    assert (HH : forall v, P_Graph.hidden s v <-> BeliefSpec.hidden (model ops) v).
    { intros v. unfold P_Graph.hidden, BeliefSpec.hidden. rewrite <- (ab_vars _ _ AB). split; intros [I Q]; split; auto.
      - destruct (sp_evidence (model ops) v) as [k|] eqn:E; auto. exfalso. apply (Q k). apply (C20_evidences_partial H HB ops s R). rewrite <- (ab_vars _ _ AB). auto.
      - intros k Ev. apply (C20_evidences_partial H HB ops s R) in Ev as [_ Ev]. unfold sp_evidence in Q. congruence. }
    assert (EE : forall v w, connected H s v w <-> hidden_edge H (model ops) v w).
    { intros v w. unfold connected, hidden_edge, joins, fv. rewrite !HH, (ab_all _ _ AB). split; intros (? & ? & f & ? & ?); split; auto; split; auto; exists f; tauto. }
    assert (LL : forall v w, clos_refl_trans var (connected H s) v w <-> hidden_linked H (model ops) v w).
    { intros v w. unfold hidden_linked. split; intros L; induction L; eauto using rt_refl, rt_trans; apply rt_step; apply EE; auto. }
    split.
    - intros (cl & I & Ix & Iy). pose proof I as I0. apply In_nth_error in I0 as [i Hi]. rewrite <- !HH, <- LL. split; [apply C2; eauto|]. split; [apply C2; eauto|].
      apply (C3 i i cl cl); auto.
    - intros (Hx & Hy & L). apply HH in Hx, Hy. apply C2 in Hx as (ci & Ii & Ix). apply C2 in Hy as (cj & Ij & Iy). pose proof Ii as Ii0.
      apply In_nth_error in Ii as [i Hi]. apply In_nth_error in Ij as [j Hj]. apply LL in L. apply (C3 i j ci cj x y) in L; auto. subst j. rewrite Hi in Hj. injection Hj as <-.
      exists ci. auto.
  Qed.

  (** Whatever sequence of evidence changes and queries brings the evidences back
      to the previous ones gives back the same variables, factors, evidences and
      clusters. *)
  Theorem C48_restored_structure_partial : forall ops evs s s',
    reach H no_failed_removal ops s -> reach H no_failed_removal (ops ++ evs) s' -> Forall keeps_factors evs ->
    (forall v, In v (sp_vars (model ops)) -> sp_evidence (model (ops ++ evs)) v = sp_evidence (model ops) v) ->
    g_vars s' = g_vars s /\ g_all s' = g_all s /\ (forall v k, evidence s' v k <-> evidence s v k) /\
    (forall x y, same_cluster s' x y <-> same_cluster s x y).
  Proof.
    intros ops evs s s' R R' KF EQ.
    assert (VF : sp_vars (model (ops ++ evs)) = sp_vars (model ops) /\ sp_facs (model (ops ++ evs)) = sp_facs (model ops)).
    { clear - KF. revert ops. induction evs as [|op evs IH]; intros ops. rewrite app_nil_r; auto. inversion KF as [|? ? K KF']; subst.
      change (op :: evs) with ([op] ++ evs). rewrite app_assoc. destruct (IH KF' (ops ++ [op])) as [-> ->]. rewrite (sp_run_snoc H). clear - K.
      unfold sp_next. assert (RM : forall vs A, sp_vars (snd (sp_removes A vs)) = sp_vars A /\ sp_facs (snd (sp_removes A vs)) = sp_facs A).
      { induction vs as [|v vs IH]; intros A; simpl; auto. destruct (sp_observed A v); simpl; auto. destruct (IH (sp_set A v None)) as [-> ->]. auto. }
      destruct op; simpl in *; try contradiction; auto; unfold sp_set_ev, sp_remove;
        repeat match goal with |- context [match ?t with Some _ => _ | None => _ end] => destruct t end; simpl; auto;
        repeat match goal with |- context [if ?t then _ else _] => destruct t end; simpl; auto;
        match goal with |- context [sp_removes ?A ?vs] => specialize (RM vs A); destruct (sp_removes A vs); simpl in *; auto end. }
    destruct VF as [VE FE].
    destruct (reach_abs H HSd no_failed_removal ops s (fun _ _ h => h) R) as [[C CS] AB].
    destruct (reach_abs H HSd no_failed_removal _ s' (fun _ _ h => h) R') as [[C' CS'] AB'].
    split. { rewrite (ab_vars _ _ AB), (ab_vars _ _ AB'). auto. }
    split. { rewrite (ab_all _ _ AB), (ab_all _ _ AB'). auto. }
    split.
    - intros v k. rewrite (C20_evidences_partial H HB _ s' R'), (C20_evidences_partial H HB _ s R), VE.
      unfold sp_evidence in EQ. split; intros [I Q]; split; auto; [rewrite <- (EQ v I)|rewrite (EQ v I)]; auto.
    - assert (HH : forall v, BeliefSpec.hidden (model (ops ++ evs)) v <-> BeliefSpec.hidden (model ops) v).
      { intros v. unfold BeliefSpec.hidden. rewrite VE. split; intros [I Q]; split; auto; [rewrite <- (EQ v I)|rewrite (EQ v I)]; auto. }
      assert (EE : forall v w, hidden_edge H (model (ops ++ evs)) v w <-> hidden_edge H (model ops) v w).
      { intros v w. unfold hidden_edge, joins. rewrite !HH, FE. tauto. }
      intros x y. rewrite (same_cluster_linked _ s' x y R'), (same_cluster_linked _ s x y R), !HH.
      assert (LL : hidden_linked H (model (ops ++ evs)) x y <-> hidden_linked H (model ops) x y).
      { unfold hidden_linked. split; intros L; induction L; eauto using rt_refl, rt_trans; apply rt_step; apply EE; auto. }
      rewrite LL. tauto.
  Qed.

  (** Observing some hidden variables and removing these evidences, one by one in
      any order or all together, brings back the evidences. *)
  Definition removals (rem : list var) (evs : list gop) : Prop := evs = map ORemove rem \/ evs = [ORemoveSet rem].
  Definition upd_evs (A B : spec) (vs : list var) (now : bool) : Prop :=
    sp_vars B = sp_vars A /\ sp_facs B = sp_facs A /\
    forall w, if existsb (same_key w) vs then is_obs B w = now else sp_evidence B w = sp_evidence A w.

  Lemma upd_key A v x w : sp_evidence (sp_set A v x) w = if same_key w v then x else sp_evidence A w.
  Proof. reflexivity. Qed.
  Lemma sets_effect sets : forall A, (forall v k, In (v, k) sets -> In v (sp_vars A) /\ k < vsize v) ->
    upd_evs A (fold_left (sp_next (fvars H)) (map (fun p => OSet (fst p) (snd p)) sets) A) (map fst sets) true.
  Proof.
    induction sets as [|[v k] sets IH]; intros A Q; simpl. { unfold upd_evs; simpl; auto. }
    destruct (Q v k (or_introl eq_refl)) as [Iv Lk].
    assert (E : sp_next (fvars H) A (OSet v k) = sp_set A v (Some k)).
    { unfold sp_next. simpl. unfold sp_set_ev. replace (k <? vsize v) with true by (symmetry; apply Nat.ltb_lt; auto).
      replace (sp_known A v) with true. auto. symmetry. unfold sp_known. apply existsb_exists. exists v. split; auto. apply same_key_spec; auto. }
    rewrite E. destruct (IH (sp_set A v (Some k))) as (V & F & G). { intros; apply Q; simpl; auto. }
    split; [rewrite V; auto|]. split; [rewrite F; auto|]. intros w. specialize (G w). simpl.
    destruct (existsb (same_key w) (map fst sets)); [rewrite orb_true_r; auto|]. rewrite orb_false_r. rewrite upd_key in G.
    destruct (same_key w v) eqn:Ew; auto. unfold is_obs. rewrite G. auto.
  Qed.
  Lemma observed_is A v : In v (sp_vars A) -> sp_observed A v = is_obs A v.
  Proof.
    intros I. unfold sp_observed, is_obs, sp_evidence. replace (sp_known A v) with true. simpl. auto. symmetry. unfold sp_known. apply existsb_exists. exists v. split; auto. apply same_key_spec; auto.
  Qed.
  Lemma set_none_keeps A v w : same_key w v = false -> is_obs (sp_set A v None) w = is_obs A w.
  Proof. intros E. unfold is_obs. rewrite upd_key, E. auto. Qed.
  Lemma keys_apart v rem : NoDup (map vkey (v :: rem)) -> forall w, In w rem -> same_key w v = false.
  Proof.
    intros ND w Iw. destruct (same_key w v) eqn:E; auto. apply same_key_spec in E. simpl in ND. inversion ND as [|? ? NI _]; subst. destruct NI. rewrite <- E. apply in_map; auto.
  Qed.
  Lemma removes_effect rem : forall A, NoDup (map vkey rem) -> (forall v, In v rem -> In v (sp_vars A) /\ is_obs A v = true) ->
    fst (sp_removes A rem) = false /\ upd_evs A (snd (sp_removes A rem)) rem false.
  Proof.
    induction rem as [|v rem IH]; intros A ND Q; simpl. { unfold upd_evs; simpl; auto. }
    destruct (Q v (or_introl eq_refl)) as [Iv Ov]. rewrite (observed_is A v Iv), Ov.
    destruct (IH (sp_set A v None)) as (F & V & Fa & G). { inversion ND; auto. }
    { intros w Iw. destruct (Q w (or_intror Iw)) as [I1 I2]. split; auto. rewrite set_none_keeps; auto. eapply keys_apart; eauto. }
    split; auto. split; [rewrite V; auto|]. split; [rewrite Fa; auto|]. intros w. specialize (G w). simpl.
    destruct (existsb (same_key w) rem); [rewrite orb_true_r; auto|]. rewrite orb_false_r. rewrite upd_key in G. destruct (same_key w v) eqn:Ew; auto. unfold is_obs. rewrite G. auto.
  Qed.
  Lemma removals_effect rem evs : removals rem evs -> forall A, NoDup (map vkey rem) -> (forall v, In v rem -> In v (sp_vars A) /\ is_obs A v = true) ->
    upd_evs A (fold_left (sp_next (fvars H)) evs A) rem false.
  Proof.
    intros [-> | ->] A ND Q.
    - replace (fold_left (sp_next (fvars H)) (map ORemove rem) A) with (snd (sp_removes A rem)). apply removes_effect; auto.
      revert A ND Q. induction rem as [|v rem IH]; intros A ND Q; simpl; auto. destruct (Q v (or_introl eq_refl)) as [Iv Ov].
      unfold sp_next at 2. simpl. unfold sp_remove. rewrite (observed_is A v Iv), Ov. apply IH. inversion ND; auto.
      intros w Iw. destruct (Q w (or_intror Iw)) as [I1 I2]. split; auto. rewrite set_none_keeps; auto. eapply keys_apart; eauto.
    - simpl. unfold sp_next. simpl. destruct (removes_effect rem A ND Q) as [_ G]. destruct (sp_removes A rem); auto.
  Qed.
  Theorem C48_same_evidences : forall ops sets rem evs,
    (forall v k, In (v, k) sets -> BeliefSpec.hidden (model ops) v /\ k < vsize v) ->
    NoDup (map vkey rem) -> (forall v, In v rem <-> exists k, In (v, k) sets) -> removals rem evs ->
    same_model (model ops) (model (ops ++ map (fun p => OSet (fst p) (snd p)) sets ++ evs)).
  Proof.
    intros ops sets rem evs HS ND RS RM. unfold sp_run. rewrite !fold_left_app. fold (model ops). set (A := model ops) in *.
    destruct (sets_effect sets A) as (V1 & F1 & G1). { intros v k I. destruct (HS v k I) as [[? _] ?]. auto. }
    set (B := fold_left _ (map _ sets) A) in *.
    destruct (removals_effect rem evs RM B ND) as (V2 & F2 & G2).
    { intros v I. apply RS in I as [k I]. rewrite V1. split. apply (HS v k I). specialize (G1 v).
      replace (existsb (same_key v) (map fst sets)) with true in G1; auto. symmetry. apply existsb_exists. exists v. split. apply (in_map fst _ _ I). apply same_key_spec; auto. }
    split; [rewrite V2, V1; auto|]. split; [rewrite F2, F1; auto|]. intros w. specialize (G1 w). specialize (G2 w).
    assert (EQ : existsb (same_key w) rem = existsb (same_key w) (map fst sets)).
    { apply eq_true_iff_eq. rewrite !existsb_exists. split; intros (v & I & E); exists v; split; auto.
      - apply RS in I as [k I]. apply (in_map fst _ _ I). - apply in_map_iff in I as ([v' k] & <- & I). apply RS. exists k; auto. }
    rewrite EQ in G2. destruct (existsb (same_key w) (map fst sets)) eqn:Ew; [|congruence].
    apply existsb_exists in Ew as (v & I & E). apply in_map_iff in I as ([v' k] & <- & I). destruct (HS _ _ I) as [[_ Hn] _]. apply same_key_spec in E. simpl in E.
    unfold is_obs in G2. destruct (sp_evidence (fold_left (sp_next (fvars H)) evs B) w); [discriminate|].
    unfold sp_evidence in *. unfold vkey in E. injection E as E1 E2. rewrite E1, E2. auto.
  Qed.

  (** The full property: also next to variables that stay observed
      ([C48_restored_marginals_refuted]), with factors of any shape. *)
  Theorem C48_restored_marginals_partial : forall ops s sets rem evs s' e e' n n' v,
    reach H (proper_use H) ops s -> reach H (proper_use H) (ops ++ map (fun p => OSet (fst p) (snd p)) sets ++ evs) s' ->
    (forall v k, In (v, k) sets -> hidden (model ops) v /\ k < vsize v) ->
    NoDup (map vkey rem) -> (forall v, In v rem <-> exists k, In (v, k) sets) -> removals rem evs ->
    env_ok e -> env_ok e' -> 1 <= n -> 1 <= n' ->
    balanced H (model ops) -> positive (weight_swapped H (model ops)) (model ops) -> hidden (model ops) v -> tree_around H (model ops) v ->
    exists l s1 s1', get_marginal H e v n s = Ret l s1 /\ get_marginal H e' v n' s' = Ret l s1'.
  Proof.
    intros ops s sets rem evs s' e e' n n' v R R' HS ND RS RM. intros. eapply C27_same_marginal_partial; eauto. eapply C48_same_evidences; eauto.
  Qed.
End P.

(** {1 Refutations} *)
Notation bmodel := (sp_run (fvars bH)).


(** C22 fails for a factor that is not symmetric: A - C with the values
    4 1 / 2 3, one factor, no evidence, no cycle *)
Theorem C22_exact_marginals_refuted : exists (H : nat -> func QcNum) ops s e n v l s',
  (forall f, built (H f)) /\ reach H (proper_use H) ops s /\ env_ok e /\ 1 <= n /\
  balanced H (sp_run (fvars H) ops) /\ positive (weight H (sp_run (fvars H) ops)) (sp_run (fvars H) ops) /\
  hidden (sp_run (fvars H) ops) v /\ tree_around H (sp_run (fvars H) ops) v /\
  get_marginal H e v n s = Ret l s' /\ l <> map (marginal (weight H (sp_run (fvars H) ops)) (sp_run (fvars H) ops) v) (seq 0 (vsize v)).
Proof.
  set (ops := [OAdd (Some 5)]).
  destruct (answers_different (get_marginal bH env_id exA 1 (runs bH ops)) (exact_marginals (bmodel ops) exA)) as (l & s' & Q & NE);
    [vm_compute; reflexivity|vm_compute; reflexivity|].
  exists bH, ops, (runs bH ops), env_id, 1, exA, l, s'. splits; auto.
  - apply bH_built.
  - apply (properly_reach bH); vm_compute; reflexivity.
  - apply env_id_ok.
  - apply balancedb_ok. vm_compute. reflexivity.
  - apply positiveb_ok. vm_compute. reflexivity.
  - apply hiddenb_ok. vm_compute. reflexivity.
  - apply (forestb_ok bH). vm_compute. repeat constructor; simpl; intuition discriminate. vm_compute. reflexivity.
Qed.

(** C23 fails for a factor that is not symmetric, and for factors with values
    below the smallest positive normalised float even when symmetric: the value
    returned by getMAP is the one of no most probable assignment *)
Definition wrong_map (H : nat -> func QcNum) (ops : list gop) : Prop :=
  exists s e n v j s', reach H (proper_use H) ops s /\ env_ok e /\ 1 <= n /\
    balanced H (sp_run (fvars H) ops) /\ positive (weight H (sp_run (fvars H) ops)) (sp_run (fvars H) ops) /\
    hidden (sp_run (fvars H) ops) v /\ tree_around H (sp_run (fvars H) ops) v /\
    get_map H e v n s = Ret j s' /\ forall x, most_probable (weight H (sp_run (fvars H) ops)) (sp_run (fvars H) ops) x -> val x v <> j.
Definition maps_to (o : out (gst (N:=QcNum)) nat) (j : nat) : bool := match o with Ret k _ => k =? j | _ => false end.
Lemma maps_to_spec o j : maps_to o j = true -> exists s', o = Ret j s'.
Proof. destruct o; simpl; intros E; try discriminate. apply Nat.eqb_eq in E. subst. eauto. Qed.
(** no assignment with the value [j] is as probable as some other one *)
Definition beatenb (A : spec) (W : asg -> QcNum) (v : var) (j : nat) : bool :=
  forallb (fun x => negb (takes v j x) || existsb (fun y => agrees A y && nltb (W x) (W y)) (all_asg (sp_vars A))) (all_asg (sp_vars A)).
Lemma beatenb_ok A W v j : beatenb A W v j = true -> forall x, most_probable W A x -> val x v <> j.
Proof.
  unfold beatenb. rewrite forallb_forall. intros B x ((Ix & Ax) & M) E. specialize (B x Ix). unfold takes in B. rewrite E, Nat.eqb_refl in B. cbn [negb orb] in B.
  apply existsb_exists in B as (y & Iy & Q). apply andb_true_iff in Q as [Ay L]. specialize (M y (conj Iy Ay)). exact (eq_true_false_abs _ L M).
Qed.
Theorem C23_exact_map_refuted : exists (H : nat -> func QcNum) ops, (forall f, built (H f)) /\
  above_floor H (sp_run (fvars H) ops) /\ wrong_map H ops.
Proof.
  exists bH, [OAdd (Some 8)]. set (ops := [OAdd (Some 8)]). split; [apply bH_built|]. split; [apply above_floorb_ok; vm_compute; reflexivity|].
  destruct (maps_to_spec (get_map bH env_id exA 1 (runs bH ops)) 1) as [s' Q]; [vm_compute; reflexivity|].
  exists (runs bH ops), env_id, 1, exA, 1, s'. splits; auto.
  - apply (properly_reach bH); vm_compute; reflexivity.
  - apply env_id_ok.
  - apply balancedb_ok. vm_compute. reflexivity.
  - apply positiveb_ok. vm_compute. reflexivity.
  - apply hiddenb_ok. vm_compute. reflexivity.
  - apply (forestb_ok bH). vm_compute. repeat constructor; simpl; intuition discriminate. vm_compute. reflexivity.
  - apply beatenb_ok. vm_compute. reflexivity.
Qed.
Theorem C23_small_values_refuted : exists (H : nat -> func QcNum) ops, (forall f, built (H f)) /\
  symmetric H (sp_run (fvars H) ops) /\ wrong_map H ops.
Proof.
  exists bH, [OAdd (Some 6)]. set (ops := [OAdd (Some 6)]). split; [apply bH_built|]. split; [apply (symmetricb_ok QcNum_ok); vm_compute; reflexivity|].
  destruct (maps_to_spec (get_map bH env_id exA 1 (runs bH ops)) 0) as [s' Q]; [vm_compute; reflexivity|].
  exists (runs bH ops), env_id, 1, exA, 0, s'. splits; auto.
  - apply (properly_reach bH); vm_compute; reflexivity.
  - apply env_id_ok.
  - apply balancedb_ok. vm_compute. reflexivity.
  - apply positiveb_ok. vm_compute. reflexivity.
  - apply hiddenb_ok. vm_compute. reflexivity.
  - apply (forestb_ok bH). vm_compute. repeat constructor; simpl; intuition discriminate. vm_compute. reflexivity.
  - apply beatenb_ok. vm_compute. reflexivity.
Qed.

(** C25 fails when the variables of a factor between hidden variables have
    different sizes, even if the observed variable is far from them: the query
    has an undefined behaviour *)
Theorem C25_observed_marginal_refuted : exists (H : nat -> func QcNum) ops s e n v o,
  (forall f, built (H f)) /\ reach H (proper_use H) ops s /\ env_ok e /\ 1 <= n /\
  In v (sp_vars (sp_run (fvars H) ops)) /\ sp_evidence (sp_run (fvars H) ops) v = Some o /\
  positive (weight H (sp_run (fvars H) ops)) (sp_run (fvars H) ops) /\ get_marginal H e v n s = Undef.
Proof.
  set (ops := [OAdd (Some 7); OAdd (Some 9); OSet exD 0]).
  exists bH, ops, (runs bH ops), env_id, 1, exD, 0. splits; auto.
  - apply bH_built.
  - apply (properly_reach bH); vm_compute; reflexivity.
  - apply env_id_ok.
  - apply (proj1 (mem_var_spec _ _)). vm_compute. reflexivity.
  - apply positiveb_ok. vm_compute. reflexivity.
Qed.

(** C27 and C48 fail when an evidence is removed next to a variable that stays
    observed. In the chain A - C - D with A observed, observing C and removing
    its evidence makes the model forget the evidence of A: *)
Theorem C48_restored_marginals_refuted : exists (H : nat -> func QcNum) ops s v k e w l s1 l' s1',
  let evs := [OSet v k; ORemove v] in
  let s' := runs H (ops ++ evs) in
  (forall f, built (H f)) /\ reach H (proper_use H) ops s /\ reach H no_failed_removal (ops ++ evs) s' /\
  same_model (sp_run (fvars H) ops) (sp_run (fvars H) (ops ++ evs)) /\ env_ok e /\
  symmetric H (sp_run (fvars H) ops) /\ positive (weight H (sp_run (fvars H) ops)) (sp_run (fvars H) ops) /\
  hidden (sp_run (fvars H) ops) w /\ tree_around H (sp_run (fvars H) ops) w /\
  get_marginal H e w 1 s = Ret l s1 /\ get_marginal H e w 1 s' = Ret l' s1' /\ l <> l'.
Proof.
  set (ops := [OAdd (Some 0); OAdd (Some 1); OSet exA 0]). set (evs := [OSet exC 0; ORemove exC]).
  assert (Q0 : answers (get_marginal bH env_id exD 1 (runs bH ops)) (exact_marginals (bmodel ops) exD) = true) by (vm_compute; reflexivity).
  apply answers_sound in Q0 as [s1 Q0].
  destruct (answers_different (get_marginal bH env_id exD 1 (runs bH (ops ++ evs))) (exact_marginals (bmodel ops) exD)) as (l' & s1' & Q & NE);
    [vm_compute; reflexivity|vm_compute; reflexivity|].
  exists bH, ops, (runs bH ops), exC, 0, env_id, exD, (exact_marginals (bmodel ops) exD), s1, l', s1'. cbv zeta. fold evs. splits; auto.
  - apply bH_built.
  - apply (properly_reach bH); vm_compute; reflexivity.
  - apply runs_reach; [|vm_compute; reflexivity]. intros pre op post E. unfold ops, evs in E. simpl in E.
    repeat (destruct pre as [|? pre]; [injection E as <- <-; exact I|]; injection E as <- E). destruct pre; discriminate.
  - apply (C48_same_evidences bH ops [(exC, 0)] [exC] [ORemove exC]).
    + intros v k [[= <- <-]|[]]. split. apply hiddenb_ok. vm_compute. reflexivity. unfold exC; simpl; lia.
    + repeat constructor; simpl; tauto.
    + intros v. simpl. split. intros [<-|[]]. exists 0. auto. intros (k & [[= <- _]|[]]). auto.
    + left. reflexivity.
  - apply env_id_ok.
  - apply (symmetricb_ok QcNum_ok). vm_compute. reflexivity.
  - apply positiveb_ok. vm_compute. reflexivity.
  - apply hiddenb_ok. vm_compute. reflexivity.
  - apply (forestb_ok bH). vm_compute. repeat constructor; simpl; intuition discriminate. vm_compute. reflexivity.
Qed.
(** and without D the query has an undefined behaviour *)
Theorem C48_restored_query_refuted : exists (H : nat -> func QcNum) ops s v k e w,
  let evs := [OSet v k; ORemove v] in
  let s' := runs H (ops ++ evs) in
  (forall f, built (H f)) /\ reach H (proper_use H) ops s /\ reach H no_failed_removal (ops ++ evs) s' /\ env_ok e /\
  (exists l s1, get_marginal H e w 1 s = Ret l s1) /\ get_marginal H e w 1 s' = Undef.
Proof.
  set (ops := [OAdd (Some 0); OSet exA 0]). set (evs := [OSet exC 0; ORemove exC]).
  exists bH, ops, (runs bH ops), exC, 0, env_id, exC. cbv zeta. fold evs. splits; auto.
  - apply bH_built.
  - apply (properly_reach bH); vm_compute; reflexivity.
  - apply runs_reach; [|vm_compute; reflexivity]. intros pre op post E. unfold ops, evs in E. simpl in E.
    repeat (destruct pre as [|? pre]; [injection E as <- <-; exact I|]; injection E as <- E). destruct pre; discriminate.
  - apply env_id_ok.
  - assert (Q0 : answers (get_marginal bH env_id exC 1 (runs bH ops)) (exact_marginals (bmodel ops) exC) = true) by (vm_compute; reflexivity).
    apply answers_sound in Q0 as [s1 Q0]. eauto.
Qed.

(** {1 A history that meets the hypotheses}

    Four factors on the tree A - C - D, C - E and a unary factor, queries of
    both kinds, evidences set by variable and by name and removed; at the end D is
    observed. *)
Definition tale : list gop :=
  [OAdd (Some 0); OAdd (Some 1); OAdd (Some 2); OMarginal exD 2; OAdd (Some 3); OSet exE 1; OMap exA 1; ORemove exE;
   OSetName "A" 1; OPropagate true 3; ORemoveAll; OSet exD 1].
Example tale_reach : reach bH (proper_use bH) tale (runs bH tale).
Proof. apply (properly_reach bH); vm_compute; reflexivity. Qed.
Example tale_tree v : tree_around bH (bmodel tale) v.
Proof. apply (forestb_ok bH). vm_compute. repeat constructor; simpl; intuition discriminate. vm_compute. reflexivity. Qed.
Example tale_symmetric : symmetric bH (bmodel tale). Proof. apply (symmetricb_ok QcNum_ok). vm_compute. reflexivity. Qed.
Example tale_floor : above_floor bH (bmodel tale). Proof. apply above_floorb_ok. vm_compute. reflexivity. Qed.
Example tale_positive : positive (weight bH (bmodel tale)) (bmodel tale). Proof. apply positiveb_ok. vm_compute. reflexivity. Qed.
Example tale_hidden : hidden (bmodel tale) exA /\ hidden (bmodel tale) exC /\ hidden (bmodel tale) exE /\ sp_evidence (bmodel tale) exD = Some 1.
Proof.
  split; [apply hiddenb_ok; vm_compute; reflexivity|]. split; [apply hiddenb_ok; vm_compute; reflexivity|].
  split; [apply hiddenb_ok; vm_compute; reflexivity|]. vm_compute. reflexivity.
Qed.
(** the theorem applied to it *)
Example tale_marginal : exists s', get_marginal bH env_rev exA 3 (runs bH tale) = Ret (exact_marginals (bmodel tale) exA) s'.
Proof.
  exact (C22_exact_marginals_partial QcNum_ok bH bH_built tale (runs bH tale) env_rev 3 exA tale_reach env_rev_ok
    (le_S _ _ (le_S _ _ (le_n 1))) tale_symmetric tale_positive (proj1 tale_hidden) (tale_tree exA)).
Qed.
Example tale_value : map (fun x => neqb (fst x) (snd x)) (combine (exact_marginals (bmodel tale) exA) [q 28 115; q 87 115]) = [true; true].
Proof. vm_compute. reflexivity. Qed.


Example tale_map : maps_to (get_map bH env_rev exA 3 (runs bH tale)) 1 && maps_to (get_map bH env_rev exE 3 (runs bH tale)) 0 &&
  maps_to (get_map bH env_id exD 1 (runs bH tale)) 1 = true.
Proof. vm_compute. reflexivity. Qed.
Example tale_map_theorem : exists j s', get_map bH env_rev exA 3 (runs bH tale) = Ret j s' /\
  (exists x, most_probable (weight bH (bmodel tale)) (bmodel tale) x /\ val x exA = j) /\
  (forall x, most_probable (weight bH (bmodel tale)) (bmodel tale) x -> j <= val x exA).
Proof.
  exact (C23_exact_map_partial QcNum_ok bH bH_built tale (runs bH tale) env_rev 3 exA tale_reach env_rev_ok
    (le_S _ _ (le_S _ _ (le_n 1))) tale_symmetric tale_floor tale_positive (proj1 tale_hidden) (tale_tree exA)).
Qed.
(** the most probable assignment is unique: A = C = D = 1, E = 0 *)
Definition tale_best : asg := [(exA, 1); (exC, 1); (exD, 1); (exE, 0)].
Example tale_unique : most_probable (weight bH (bmodel tale)) (bmodel tale) tale_best /\
  forall y, most_probable (weight bH (bmodel tale)) (bmodel tale) y -> y = tale_best.
Proof.
  assert (U : forall y, most_probable (weight bH (bmodel tale)) (bmodel tale) y -> y = tale_best).
  { intros y M. pose proof M as ((I & _) & _).
    assert (VA : val y exA <> 0) by (apply (beatenb_ok (bmodel tale) (weight bH (bmodel tale))); [vm_compute; reflexivity|exact M]).
    assert (VC : val y exC <> 0) by (apply (beatenb_ok (bmodel tale) (weight bH (bmodel tale))); [vm_compute; reflexivity|exact M]).
    assert (VD : val y exD <> 0).
    { pose proof M as ((_ & Ag) & _). unfold agrees in Ag. rewrite forallb_forall in Ag. specialize (Ag exD).
      replace (sp_evidence (bmodel tale) exD) with (Some 1) in Ag by (vm_compute; reflexivity).
      rewrite (proj1 (Nat.eqb_eq _ _) (Ag ltac:(apply (proj1 (mem_var_spec _ _)); vm_compute; reflexivity))). discriminate. }
    assert (VE : val y exE <> 1) by (apply (beatenb_ok (bmodel tale) (weight bH (bmodel tale))); [vm_compute; reflexivity|exact M]).
    clear M. replace (sp_vars (bmodel tale)) with [exA; exC; exD; exE] in I by (vm_compute; reflexivity). simpl in I.
    repeat (destruct I as [<-|I]; [try reflexivity; exfalso; simpl in VA, VC, VD, VE; auto|]). destruct I. }
  split; auto.
  destruct tale_map_theorem as (j & s' & _ & (x & M & _) & _). rewrite <- (U x M). exact M.
Qed.
Example tale_hidden_map : exists s', get_hidden_map bH env_rev 2 (runs bH tale) = Ret (map (val tale_best) (hidden_variables env_rev (runs bH tale))) s'.
Proof.
  exact (C23_hidden_set_map_partial QcNum_ok bH bH_built tale (runs bH tale) env_rev 2 tale_reach env_rev_ok
    (le_S _ _ (le_n 1)) tale_symmetric tale_floor tale_positive (fun v _ => tale_tree v) tale_best (proj1 tale_unique) (proj2 tale_unique)).
Qed.

(** another history with the same factors and evidences *)
Definition tale' : list gop := [OAdd (Some 3); OAdd (Some 1); OSet exD 0; OAdd (Some 0); OAdd (Some 2); OSet exD 1].
Example tale'_reach : reach bH (proper_use bH) tale' (runs bH tale').
Proof. apply (properly_reach bH); vm_compute; reflexivity. Qed.
Example tale_same : same_model (bmodel tale) (bmodel tale').
Proof.
  split; [|split].
  - apply NoDup_Permutation; [vm_compute; repeat constructor; simpl; intuition discriminate..|]. intros v. vm_compute. tauto.
  - apply NoDup_Permutation; [vm_compute; repeat constructor; simpl; intuition discriminate..|]. intros v. vm_compute. tauto.
  - intros v. unfold sp_evidence. change (vname v, vsize v) with (vkey v).
    destruct (reach_usable QcNum_ok bH (fun f => built_good QcNum_ok (bH f) (bH_built f)) tale _ tale_reach) as [_ AB _ _].
    destruct (reach_usable QcNum_ok bH (fun f => built_good QcNum_ok (bH f) (bH_built f)) tale' _ tale'_reach) as [_ AB' _ _].
    destruct (in_dec prod_dec (vkey v) (map vkey [exA; exC; exD; exE])) as [I|NI].
    + simpl in I. repeat (destruct I as [<-|I]; [vm_compute; reflexivity|]). destruct I.
    + assert (V : g_vars (runs bH tale) = [exA; exC; exD; exE]) by (vm_compute; reflexivity).
      assert (V' : g_vars (runs bH tale') = [exE; exC; exD; exA]) by (vm_compute; reflexivity).
      pose proof (ab_none _ _ AB (vkey v)) as E. pose proof (ab_none _ _ AB' (vkey v)) as E'. clear AB AB'. rewrite V in E. rewrite V' in E'. clear V V'.
      generalize dependent (sp_ev (bmodel tale)). generalize dependent (sp_ev (bmodel tale')). intros m E' m' E.
      rewrite E by exact NI. rewrite E'; auto. intros I. apply NI. simpl in *. tauto.
Qed.
Example tale_agree : answers (get_marginal bH env_rev exC 1 (runs bH tale')) (exact_marginals (bmodel tale) exC) &&
  answers (get_marginal bH env_id exC 2 (runs bH tale)) (exact_marginals (bmodel tale) exC) = true.
Proof. vm_compute. reflexivity. Qed.

(** E and A are observed, then their evidences are removed together *)
Example tale_restored :
  let evs := map (fun p => OSet (fst p) (snd p)) [(exE, 0); (exA, 1)] ++ [ORemoveSet [exA; exE]] in
  reach bH (proper_use bH) (tale ++ evs) (runs bH (tale ++ evs)) /\
  (forall v k, In (v, k) [(exE, 0); (exA, 1)] -> hidden (bmodel tale) v /\ k < vsize v) /\
  removals [exA; exE] [ORemoveSet [exA; exE]] /\
  answers (get_marginal bH env_id exC 2 (runs bH (tale ++ evs))) (exact_marginals (bmodel tale) exC) = true.
Proof.
  cbv zeta. split; [|split; [|split]].
  - apply (properly_reach bH); vm_compute; reflexivity.
  - intros v k [[= <- <-]|[[= <- <-]|[]]]; (split; [apply hiddenb_ok; vm_compute; reflexivity|unfold exE, exA; simpl; lia]).
  - right. reflexivity.
  - vm_compute. reflexivity.
Qed.

(** a model with the cycle A - C - D, and E attached: the propagation reports
    one cluster of four variables that is not a tree *)
Definition loop_tale : list gop := [OAdd (Some 0); OAdd (Some 1); OAdd (Some 4); OAdd (Some 3); OPropagate true 2].
Example loop_tale_reach : reach bH (proper_use bH) loop_tale (runs bH loop_tale).
Proof. apply (properly_reach bH); vm_compute; reflexivity. Qed.
Example loop_tale_structs : option_map pr_structs (g_last (runs bH loop_tale)) = Some [(false, 4)].
Proof. vm_compute. reflexivity. Qed.
Example tale_structs : option_map pr_structs (g_last (after (get_marginal bH env_rev exA 3 (runs bH tale)))) = Some [(true, 3)].
Proof. vm_compute. reflexivity. Qed.
(** C observed: E is alone, A and D are still joined *)
Example split_structs : option_map pr_structs (g_last (after (get_marginal bH env_rev exA 1 (runs bH (loop_tale ++ [OSet exC 0]))))) = Some [(true, 1); (true, 2)].
Proof. vm_compute. reflexivity. Qed.

Print Assumptions C22_exact_marginals_partial.
Print Assumptions C22_exact_marginals_by_name_partial.
Print Assumptions C22_transposed_marginals.
Print Assumptions C22_distribution.
Print Assumptions C22_exact_marginals_refuted.
Print Assumptions C23_exact_map_partial.
Print Assumptions C23_hidden_set_map_partial.
Print Assumptions C23_exact_map_refuted.
Print Assumptions C23_small_values_refuted.
Print Assumptions C25_observed_marginal_partial.
Print Assumptions C25_observed_map_partial.
Print Assumptions C25_observed_marginal_refuted.
Print Assumptions C26_queries_keep_the_model.
Print Assumptions C26_repeated_query_partial.
Print Assumptions C26_interleaved_queries_partial.
Print Assumptions C27_same_answers_partial.
Print Assumptions C27_same_marginal_partial.
Print Assumptions C27_same_map_partial.
Print Assumptions C28_tree_detection_partial.
Print Assumptions C28_propagation_reported_partial.
Print Assumptions C48_restored_structure_partial.
Print Assumptions C48_same_evidences.
Print Assumptions C48_restored_marginals_partial.
Print Assumptions C48_restored_marginals_refuted.
Print Assumptions C48_restored_query_refuted.
