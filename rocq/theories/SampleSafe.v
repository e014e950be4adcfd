(** Sampling never goes through undefined behaviour, and the samples are in the
    range of the variables, whatever the numbers *)
From Coq Require Import String List Arith Bool Lia Permutation Relations.
From Verif Require Import Res Num Categoric Combs Func FuncProofs GroupProofs FactorProofs FactorApi Special SpecialProofs
  Graph GraphLemmas Clusters Belief Query Gibbs GraphInv EvidInv BeliefInv BigOp Tree Cycle BPStep BPRun GraphSpec Hist P_Graph BeliefSpec Sums Exact BeliefHist Queries
  Parts JointSpec Joint SafeSpec Safe Train TrainSpec Gradient GradientRun GibbsSpec GibbsProofs GibbsChain.
Import ListNotations.
Open Scope nat_scope.

Lemma valid_comb_nth sz c : length c = length sz -> (forall i n k, nth_error sz i = Some n -> nth_error c i = Some k -> k < n) -> valid_comb sz c.
Proof.
  revert c. induction sz as [|n sz IH]; intros [|k c] L Q; try discriminate L. constructor. constructor. exact (Q 0 n k eq_refl eq_refl).
  apply IH. injection L; auto. intros i. apply (Q (S i)).
Qed.
Lemma valid_comb_lset sz c a k : valid_comb sz c -> (forall n, nth_error sz a = Some n -> k < n) -> valid_comb sz (lset c a k).
Proof.
  intros V. revert a. induction V as [|x n c sz L V IH]; intros a Q; destruct a; simpl; try constructor; auto.
  apply IH. intros m. apply (Q m).
Qed.

Section SampleSafe.
  Context {N : num}.
  Notation gst := (gst (N:=N)).
  Notation snode := (snode (N:=N)).
  Variable H : nat -> func N.
  Hypothesis HG : solids H.
  Implicit Types s : gst.
  Notation rok := (@rok (stops N) _).
  Notation ook := (@ook (stops N) _ _).

  Definition sn_fine s (nd : snode) : Prop :=
    g_ev s (sn_pos nd) = None /\ exists va, var_at s (sn_pos nd) va /\ unary va (sn_static nd) /\
      Forall (fun d => exists b, dep_ok s (sn_pos nd) b d) (sn_deps nd).
  (** the merged factors are only added *)
  Definition more s s' : Prop := keeps H s s' /\ g_last s' = g_last s /\ g_pool s' = g_pool s /\ (warm s -> warm s').
  Lemma more_refl s : more s s.
  Proof. split; auto. apply keeps_refl. Qed.
  Lemma more_trans s t u : more s t -> more t u -> more s u.
  Proof. intros (A1 & A2 & A3 & A4) (B1 & B2 & B3 & B4). unfold more. splits; try congruence; auto. eapply keeps_trans; eauto. Qed.
  Lemma more_fine s s' nd : more s s' -> sn_fine s' nd -> sn_fine s nd.
  Proof.
    intros (K & _) (E & va & Ha & U & F). split. rewrite <- (kp_ev _ _ _ K). auto. exists va. split. apply (keeps_var H s s'); auto. split; auto.
    rewrite Forall_forall in *. intros d J. destruct (F d J) as (b & D1 & D2 & c & Q & D3). exists b. split; auto. split. apply (keeps_var H s s'); auto.
    apply (keeps_act H s s' _ _ _ K) in Q as (c' & Q & Ef & _). exists c'. split; auto. congruence.
  Qed.
  Lemma merged_more s a m e : env_ok e -> merge_of H e s a = Ok m -> more s (set_merged s a m).
  Proof.
    intros E Em. unfold more. splits; auto. apply set_merged_keeps. exists e; auto.
    intros [W1 W2]. split.
    - intros b L Eb. simpl. unfold fupd. destruct (Nat.eqb_spec b a); subst; simpl. discriminate. apply W1; auto.
    - intros x y c v Q Hx. assert (SA : act (set_merged s a m) x y = act s x y).
      { unfold act. simpl. unfold fupd. destruct (Nat.eqb_spec x a); subst; auto. } rewrite SA in Q. eapply W2; eauto.
  Qed.

  Lemma make_node_safe s fs e a : core H s fs -> env_ok e -> a < gsize s -> g_ev s a = None ->
    ook (fun nd s' => more s s' /\ sn_fine s nd /\ sn_pos nd = a) (make_node H e a s).
  Proof.
    intros C E L Ev. destruct (var_at_ex _ _ L) as (va & Ha). pose proof (merge_of_rok H HG s fs e a va C E Ev Ha) as R.
    unfold make_node. rewrite update_merged_eq. destruct (merge_of H e s a) as [m| | | |] eqn:Em; cbn [lift obind]; simpl in R |- *; auto.
    pose proof (merged_more s a m e E Em) as MO. assert (K : keeps H s (set_merged s a m)) by apply MO.
    assert (C1 : core H (set_merged s a m) fs) by (eapply keeps_core; eauto).
    set (s1 := set_merged s a m) in *. assert (Ha1 : var_at s1 a va) by exact Ha.
    unfold node_var at 1, vget. unfold var_at in Ha1. rewrite Ha1. cbn [lift obind]. unfold comb_pos at 1. change (var_at s1 a va) in Ha1.
    rewrite (find_node_own H s1 fs a va C1 Ha1). cbn [lift obind].
    assert (EM : nd_merged (g_node s1 a) = Some m) by (unfold s1; simpl; rewrite fupd_eq; auto). rewrite EM.
    destruct (make_deps H s1 fs a (e_ord e a (keys (gsize s1) (nd_act (g_node s1 a)))) C1) as (ds & Ed & F2).
    { intros b I. apply ord_In in I; auto. apply (act_keys H s1 fs) in I; auto. }
    rewrite Ed. cbn [lift obind]. cbn [ook]. split; [exact MO|]. split; [|reflexivity]. apply (more_fine s s1); auto. split. exact Ev. exists va. splits; auto.
    simpl. clear -F2. induction F2; constructor; eauto.
  Qed.
  Lemma make_node_list_safe fs e l : env_ok e -> forall s, core H s fs -> (forall a, In a l -> a < gsize s /\ g_ev s a = None) ->
    ook (fun nds s' => more s s' /\ Forall (sn_fine s) nds) (make_node_list H e l s).
  Proof.
    intros E. induction l as [|a l IH]; intros s C F; cbn [make_node_list]. { split. apply more_refl. constructor. }
    destruct (F a (or_introl eq_refl)) as [L Ev]. pose proof (make_node_safe s fs e a C E L Ev) as Q.
    eapply ook_bind; [exact Q|]. intros nd s1 (M1 & S1 & _). eapply ook_bind. { apply IH. eapply keeps_core; [apply M1|auto].
      intros b Jb. destruct (F b (or_intror Jb)) as [Lb Eb]. destruct M1 as (K & _). rewrite (kp_ev _ _ _ K). split; auto. unfold gsize in *. rewrite (kp_vars _ _ _ K). auto. }
    intros nds s2 [M2 S2]. split. eapply more_trans; eauto. constructor; auto. eapply Forall_impl; [|exact S2]. intros x. apply more_fine; auto.
  Qed.

  (** {1 The values drawn} *)
  Section Draws.
    Variable s : gst.
    Variable fs : list nat.
    Hypothesis C : core H s fs.
    (** a combination gives a value in its range to every variable, the evidence to
        the observed ones *)
    Definition fits_model (comb : list nat) : Prop :=
      valid_comb (map vsize (g_vars s)) comb /\ forall a k, g_ev s a = Some k -> nth_error comb a = Some k.
    Lemma sample_discrete_lt (l : list N) x : l <> [] -> sample_discrete l x < length l.
    Proof.
      intros NE. unfold sample_discrete.
      assert (G : forall l k c j, sample_loop (N:=N) l k c x = Some j -> j < k + length l).
      { induction l0 as [|y l0 IH]; simpl; intros k c j Q. discriminate. destruct (nltb _ x). apply IH in Q. lia. injection Q as <-. lia. }
      destruct (sample_loop l 0 n0 x) eqn:Q. apply G in Q. lia. destruct l; [congruence|]. simpl. lia.
    Qed.
    Lemma sample_value_safe nd comb x : sn_fine s nd -> fits_model comb ->
      rok (fun k => exists va, var_at s (sn_pos nd) va /\ k < vsize va) (sample_value H nd comb x).
    Proof.
      intros (Ev & va & Ha & U & F) [V _]. unfold sample_value.
      eapply rok_bind.
      - apply (rmap_rok (unary va)). intros d J. rewrite Forall_forall in F. destruct (F d J) as (b & D1 & D2 & c & Q & D3).
        pose proof (co_act _ _ _ C _ _ _ Q) as (_ & _ & va' & vb & Ha' & Hb & Ef). assert (va' = va) by (eapply var_at_fun; eauto). subst va'.
        assert (Hd : d_sender d = vb) by (eapply var_at_fun; eauto). rewrite D1, Hd, D3.
        destruct (valid_at _ _ _ _ V Hb) as (k & Ek & Lk). unfold vget. rewrite Ek. cbn [rbind].
        assert (X : exists y z, fvars H (c_fac c) = [y; z] /\ (vb = y /\ va = z \/ vb = z /\ va = y)) by (destruct Ef as [Ef|Ef]; eexists _, _; split; eauto).
        destruct X as (y & z & Efx & Ho).
        destruct (evidence_factor_ok _ y z vb va k (factor_binary H HG _ _ _ Efx) Ho Lk) as (m & -> & Um & _). exact Um.
      - intros evs FU. pose proof (unary_pos va (sn_static nd) U) as P0.
        pose proof (merged_unaries_rok va (sn_static nd :: evs) (Forall_cons _ U FU) ltac:(discriminate)) as R.
        cbn [map] in R. destruct (merged_unaries (Some (sn_static nd) :: map Some evs)) as [m| | | |]; simpl in R; try contradiction; auto.
        + eapply rok_bind. apply (probabilities_rok va m R). intros p Lp. simpl. exists va. split; auto. rewrite <- Lp. apply sample_discrete_lt. intros ->. simpl in Lp. lia.
        + destruct U as [_ ->]. simpl. exists va. split; auto. lia.
    Qed.
    Variable draw : nat -> nat -> N.
    Definition st_fine (st : sstate) : Prop := fits_model (ss_comb st).
    Lemma sample_task_safe t nd st : sn_fine s nd -> st_fine st -> rok st_fine (sample_task H draw t nd st).
    Proof.
      intros F S. unfold sample_task. eapply rok_bind. apply sample_value_safe; auto. intros k (va & Ha & L). cbv beta.
      destruct S as [V EV]. assert (LC : sn_pos nd < length (ss_comb st)). { rewrite (valid_length _ _ V), map_length. eapply var_at_lt; exact Ha. }
      rewrite vset_ok by auto. simpl. split; simpl.
      - apply valid_comb_lset; auto. intros n Hn. rewrite nth_error_map in Hn. unfold var_at in Ha. rewrite Ha in Hn. injection Hn as <-. auto.
      - intros a j Q. assert (NE : a <> sn_pos nd) by (intros Z; destruct F as [F _]; rewrite <- Z in F; congruence). rewrite nth_error_lset_ne by auto. apply EV; auto.
    Qed.
    Lemma batch_safe pool b : Forall (sn_fine s) b -> forall k st, st_fine st -> rok st_fine (batch_loop H draw pool k b st).
    Proof. induction 1 as [|nd b F FB IH]; simpl; intros k st S. exact S. eapply rok_bind. apply sample_task_safe; auto. intros st' S'. apply IH; auto. Qed.
    Lemma sweep_safe pool bs : Forall (Forall (sn_fine s)) bs -> forall st, st_fine st -> rok st_fine (sweep H draw pool bs st).
    Proof.
      unfold sweep. induction 1 as [|b bs F FB IH]; simpl; intros st S. exact S. eapply rok_bind. apply batch_safe; eauto. intros st' S'. apply IH; auto.
    Qed.
    Lemma evolve_safe pool bs n : Forall (Forall (sn_fine s)) bs -> forall st, st_fine st -> rok st_fine (evolve H draw pool bs n st).
    Proof. intros F. induction n as [|n IH]; simpl; intros st S. exact S. eapply rok_bind. apply sweep_safe; eauto. intros st' S'. apply IH; auto. Qed.
    Lemma collect_safe pool bs d n : Forall (Forall (sn_fine s)) bs -> forall st, st_fine st ->
      rok (fun l => length l = n /\ Forall fits_model l) (collect H draw pool bs d n st).
    Proof.
      intros F. induction n as [|n IH]; simpl; intros st S. split; auto. eapply rok_bind. apply evolve_safe; eauto. intros st' S'.
      eapply rok_bind. apply IH; auto. intros l [E FL]. simpl. split. simpl; auto. constructor; auto.
    Qed.
  End Draws.

  Lemma start_fits s fs : core H s fs -> fits_model s (start_comb s).
  Proof.
    intros C. assert (ES : forall a, a < gsize s -> nth_error (start_comb s) a = Some (match g_ev s a with Some k => k | None => 0 end)).
    { intros a L. unfold start_comb. rewrite nth_error_map, (nth_error_nth' (seq 0 (gsize s)) 0) by (rewrite seq_length; auto). rewrite seq_nth by auto. auto. }
    split.
    - apply valid_comb_nth. { unfold start_comb. rewrite !map_length, seq_length. auto. }
      intros a n k En Ek. rewrite nth_error_map in En. destruct (nth_error (g_vars s) a) as [v|] eqn:Ha; [|discriminate]. injection En as <-.
      rewrite ES in Ek by (eapply var_at_lt; exact Ha). injection Ek as <-. destruct (g_ev s a) as [j|] eqn:Ev.
      + destruct (co_ev _ _ _ C a j Ev) as (v' & Hv' & L). assert (v' = v) by (eapply var_at_fun; [exact Hv'|exact Ha]). subst. auto.
      + pose proof (co_made _ _ _ C) as M. rewrite Forall_forall in M. apply made_pos, M. eapply nth_error_In; exact Ha.
    - intros a k Ev. destruct (co_ev _ _ _ C a k Ev) as (v & Hv & L). rewrite ES by (eapply var_at_lt; exact Hv). rewrite Ev. auto.
  Qed.

  Theorem samples_safe draw e ceil10 ctx n s p : inv H s -> env_ok e -> 1 <= n -> g_pool s = Some p ->
    ook (fun l s' => keeps H s s' /\ g_last s' = g_last s /\ g_pool s' = Some 1 /\ (warm s -> warm s') /\ length l = x_samples ctx /\ Forall (fits_model s) l)
      (make_samples H draw e ceil10 ctx n s).
  Proof.
    intros [C CS] E L PN. unfold make_samples, scoped_pool.
    assert (Q0 : exists q, set_pool_size n s = Ret tt (set_pool s (Some q)) /\ (q = p \/ True)).
    { unfold set_pool_size. rewrite PN. destruct (Nat.eqb_spec n p).
      - exists p. split; auto. destruct s; simpl in *; subst; auto.
      - destruct (Nat.eqb_spec n 0); [lia|]. exists n. auto. }
    destruct Q0 as (q & -> & _). cbn [obind]. set (s1 := set_pool s (Some q)).
    assert (K1 : keeps H s s1) by apply keeps_pool. assert (C1 : core H s1 (g_all s)) by (eapply keeps_core; eauto).
    destruct (delta_burn ceil10 ctx) as [d b]. unfold make_nodes.
    match goal with |- context [make_node_list H e ?l s1] => pose proof (make_node_list_safe (g_all s) e l E s1 C1) as Q;
      destruct (make_node_list H e l s1) as [nds s2|s2| | |] end; cbn [ook obind] in *; auto;
    (assert (HN : forall a, In a (flat_map (fun cl => e_ord e (gsize s1) (cl_nodes cl)) (g_cl s1)) -> a < gsize s1 /\ g_ev s1 a = None);
      [intros a J; apply in_flat_map in J as (cl & Jc & J); apply ord_In in J; auto; apply (hid_In s); eapply Permutation_in; [apply (cp_perm _ _ _ (cs_comp _ CS))|];
       apply in_concat; exists (cl_nodes cl); split; auto; apply in_map; auto|]); try (apply Q; auto; fail).
    destruct (Q HN) as ((K2 & LS & PO & W) & F). rewrite PO. cbn [g_pool set_pool s1].
    assert (F' : Forall (sn_fine s) nds). { exact F. }
    assert (B : exists bs, gibbs_order q nds = Ok bs /\ Forall (Forall (sn_fine s)) bs).
    { unfold gibbs_order. destruct (q =? 1). exists [nds]. split; auto.
      destruct (gibbs_batches_ok (length nds) nds (Nat.le_refl _)) as (bs & -> & P). exists bs. split; auto.
      rewrite Forall_forall. intros b0 Jb. rewrite Forall_forall in *. intros nd Jn. apply F'. eapply Permutation_in; [exact P|]. apply in_concat. eauto. }
    destruct B as (bs & -> & FB). cbn [rbind]. change (start_comb s1) with (start_comb s).
    match goal with |- context [lift ?r s2] => assert (R : rok (fun l => length l = x_samples ctx /\ Forall (fits_model s) l) r) end.
    { eapply rok_bind. apply (evolve_safe s (g_all s) C draw q bs b FB). exact (start_fits s (g_all s) C). intros st S. apply (collect_safe s (g_all s) C); auto. }
    match goal with |- context [lift ?r s2] => destruct r as [l| | | |] end; simpl in R |- *; auto.
    splits; try apply R; auto.
    eapply keeps_trans; [exact K1|]. eapply keeps_trans; [exact K2|]. apply keeps_pool.
  Qed.
End SampleSafe.
