(** The gradient returned by a random field *)
From Coq Require Import String List Arith Bool Lia Permutation Relations Field.
From Verif Require Import Res Num Categoric Combs Func FuncProofs GroupProofs FactorProofs FactorApi Special SpecialProofs
  Graph GraphLemmas Clusters Belief Query GraphInv EvidInv BeliefInv BigOp Tree Cycle BPStep BPRun GraphSpec Hist P_Graph BeliefSpec Sums Exact BeliefHist Queries
  Parts JointSpec Joint Train TrainHist Coherent TrainSpec Gradient TrainInv.
Import ListNotations.
Open Scope nat_scope.

Section Run.
  Context {N : num} (OK : num_ok N).
  Add Field NFieldRun : (ok_field N OK).
  Notation gst := (gst (N:=N)).
  Notation rst := (rst (N:=N)).
  Implicit Types s : rst.

  (** the model without its evidences *)
  Definition bare s : spec := mkSpec (g_vars (r_g s)) (fun _ => None) (g_all (r_g s)).

  Lemma valid_at (vs : list var) c k v : valid_comb (map vsize vs) c -> nth_error vs k = Some v -> exists x, nth_error c k = Some x /\ x < vsize v.
  Proof.
    unfold valid_comb. revert c k. induction vs as [|w vs IH]; intros c [|k] V Q; simpl in *; try discriminate; inversion V; subst.
    - injection Q as ->. simpl. eauto.
    - simpl. eauto.
  Qed.
  Lemma rfold_mean {B} (f : B -> res N) (g : B -> N) (l : list B) c : (forall b, In b l -> f b = Ok (g b)) ->
    forall v, rfold (fun value b => let* x := f b in Ok (value + c * x)%num) l v = Ok (v + c * sumL g l)%num.
  Proof.
    induction l as [|b l IH]; intros E v; cbn [rfold]. f_equal. unfold sumL. simpl. ring.
    rewrite E by (left; auto). cbn [rbind]. rewrite IH by (intros; apply E; right; auto). rewrite sumL_cons. f_equal. ring.
  Qed.
  Lemma rfold_total {B} (f : B -> res N) (g : B -> N) (l : list B) : (forall b, In b l -> f b = Ok (g b)) ->
    forall v, rfold (fun value b => let* x := f b in Ok (value + x)%num) l v = Ok (v + sumL g l)%num.
  Proof.
    induction l as [|b l IH]; intros E v; cbn [rfold]. f_equal. unfold sumL. simpl. ring.
    rewrite E by (left; auto). cbn [rbind]. rewrite IH by (intros; apply E; right; auto). rewrite sumL_cons. f_equal. ring.
  Qed.

  Lemma base_alpha_ok s b samples : (forall f, built (r_h s f)) -> NoDup (map vkey (g_vars (r_g s))) -> tuner_ok s b -> samples <> [] ->
    (forall c, In c samples -> valid_comb (map vsize (g_vars (r_g s))) c) ->
    base_alpha (r_h s) samples b = Ok (mean (g_vars (r_g s)) samples (feature (r_h s) (bt_fac b))).
  Proof.
    intros Hb ND [_ T] NE V. unfold base_alpha. set (g := fun c => feature (r_h s) (bt_fac b) (assigned (g_vars (r_g s)) c)).
    assert (NV : NoDup (g_vars (r_g s))) by (eapply NoDup_map_inv; eauto).
    rewrite (rfold_mean _ g).
    - f_equal. unfold mean. fold g. assert (NZ : nofnat (N:=N) (length samples) <> n0).
      { apply (nlt_neq' OK). apply (nofnat_pos OK). destruct samples; simpl; [congruence|lia]. }
      field. auto.
    - intros c Ic. specialize (V c Ic). unfold fd_find, extract_smaller, g, feature. cbn [fd_func fd_idx].
      assert (VA : forall a v, var_at (r_g s) a v -> exists x, vget c a = Ok x /\ x < vsize v /\ val (assigned (g_vars (r_g s)) c) v = x).
      { intros a v Ha. destruct (valid_at _ _ _ _ V Ha) as (x & Q & L). exists x. unfold vget. rewrite Q. splits; auto.
        unfold assigned. eapply val_combine; eauto. }
      destruct (built_good OK _ (Hb (bt_fac b))) as ((WF & _) & _).
      assert (FS : fsizes (r_h s (bt_fac b)) = map vsize (f_vars (r_h s (bt_fac b)))) by reflexivity.
      destruct (bt_kind b); [| |destruct T].
      + destruct T as (v & FV & Ha & ->). destruct (VA _ _ Ha) as (x & Q1 & Q2 & Q3). simpl rmap. rewrite Q1. cbn [rbind].
        rewrite f_find_ok; auto. rewrite FV. simpl. rewrite Q3. auto. rewrite FS, FV. repeat constructor; auto.
      + destruct T as (v & w & FV & Ha & Hw & ->). destruct (VA _ _ Ha) as (x & Q1 & Q2 & Q3). destruct (VA _ _ Hw) as (y & R1 & R2 & R3).
        simpl rmap. rewrite Q1, R1. cbn [rbind].
        rewrite f_find_ok; auto. rewrite FV. simpl. rewrite Q3, R3. auto. rewrite FS, FV. repeat constructor; auto.
  Qed.

  (** both means are linear *)
  Lemma mean_features s samples c : samples <> [] ->
    sumL (fun f => mean (g_vars (r_g s)) samples (feature (r_h s) f)) c = mean (g_vars (r_g s)) samples (features (r_h s) c).
  Proof.
    intros NE. unfold mean. assert (NZ : nofnat (N:=N) (length samples) <> n0).
    { apply (nlt_neq' OK). apply (nofnat_pos OK). destruct samples; simpl; [congruence|lia]. }
    rewrite (sumL_div OK) by auto. f_equal. rewrite (sumL_swap OK). auto.
  Qed.
  Lemma expected_features (F : nat -> func N) (W : asg -> N) A c : mass W A (fun _ => true) <> n0 ->
    sumL (fun f => expected W A (feature F f)) c = expected W A (features F c).
  Proof.
    intros NZ. unfold expected. rewrite (sumL_div OK) by auto. f_equal. rewrite (sumL_swap OK). apply sumL_ext. intros x _.
    destruct (agrees A x). unfold features. rewrite (sumL_mul_l OK). auto. apply (sumL_0 OK). auto.
  Qed.
  Lemma expected_ext (W W' : asg -> N) A G : (forall x, In x (all_asg (sp_vars A)) -> agrees A x = true -> W x = W' x) -> expected W A G = expected W' A G.
  Proof.
    intros E. unfold expected, mass. f_equal; apply sumL_ext; intros x Ix; destruct (agrees A x) eqn:Q; simpl; auto. rewrite E; auto.
  Qed.

  (** the messages computed by the gradient *)
  Lemma gradient_state s e A : coh True s -> (forall a, g_ev (r_g s) a = None) -> abs (r_g s) A -> g_pool (r_g s) <> None -> env_ok e -> balanced (r_h s) A -> positive (weight_swapped (r_h s) A) A ->
    let g0 := reset_belief (r_g s) in
    exists g r, propagate (r_h s) e SUM g0 = Ret tt g /\ ready (r_h s) A SUM g r /\ keeps (r_h s) g0 g /\ g_pool g <> None.
  Proof.
    intros C EV AB EN E B P g0. set (H := r_h s) in *.
    assert (HG : goods H) by (apply (coh_good OK True s C)).
    pose proof (ch_inv _ _ C) as [X Y].
    assert (C0 : core H g0 (g_all g0)) by (eapply core_same; [| | |exact X]; auto).
    assert (CS0 : clus g0) by (eapply clus_same; [| | | |exact Y]; auto).
    assert (CL : clean g0) by (apply no_evidence_clean; auto).
    assert (AB0 : abs g0 A) by (destruct AB; constructor; auto).
    pose proof (balanced_evened H g0 A C0 AB0 CL B) as EVN.
    destruct (positive_node H g0 A C0 AB0 P) as (x & XR & XO & XP).
    destruct (positive_parts OK H HG g0 A C0 CL EVN AB0 x XR XO XP) as (X1 & X2 & _).
    destruct (g_pool g0) as [pool|] eqn:PO; [|contradiction].
    destruct (propagate_ok OK H HG (g_all g0) g0 C0 CS0 CL EVN x X1 X2 e SUM g0 pool E (keeps_refl H g0) eq_refl PO) as (r & g & Es & El & [D1 D2 D3] & D4 & _).
    exists g, r. split; auto. split.
    - split; auto. exists g0, x, (map cl_nodes (g_cl g0)). split; [|split; auto]. constructor; auto. apply (cs_comp _ CS0).
    - split. apply D1. rewrite D4. discriminate.
  Qed.

  Theorem gradient_ok s P e it samples : coh P s -> tinv s -> g_pool (r_g s) <> None -> env_ok e ->
    symmetric (r_h s) (bare s) -> positive (weight (r_h s) (bare s)) (bare s) ->
    (forall v, In v (sp_vars (bare s)) -> tree_around (r_h s) (bare s) v) ->
    iter_samples it = Ok samples -> samples <> [] -> (forall c, In c samples -> valid_comb (map vsize (g_vars (r_g s))) c) ->
    exists s', rf_gradient e it s = Ret (map (fun c => (mean (g_vars (r_g s)) samples (features (r_h s) c) -
                                                     expected (weight (r_h s) (bare s)) (bare s) (features (r_h s) c))%num) (tunable_clusters s)) s' /\
      r_h s' = r_h s /\ tunable_clusters s' = tunable_clusters s /\ g_vars (r_g s') = g_vars (r_g s) /\ g_all (r_g s') = g_all (r_g s) /\
      (forall a, g_ev (r_g s') a = None) /\ (n0 < mass (weight (r_h s) (bare s)) (bare s) (fun _ => true))%num.
  Proof.
    intros C TI PN E SY PO TR IS NE V.
    assert (R1 : exists s1, (if existsb (fun a => is_some (g_ev (r_g s) a)) (seq 0 (gsize (r_g s))) then on_g (remove_all_evidences e) s else Ret tt s) = Ret tt s1 /\
      coh True s1 /\ (forall a, g_ev (r_g s1) a = None) /\ s1 = set_g s (r_g s1) /\ g_vars (r_g s1) = g_vars (r_g s) /\ g_all (r_g s1) = g_all (r_g s) /\ g_pool (r_g s1) <> None).
    { destruct (existsb _ _) eqn:EX.
      - destruct (remove_all_coh P s e C E) as (g & Eg & Cg & Ev & EV' & EA). exists (set_g s g). unfold on_g. rewrite Eg. splits; auto.
        pose proof (remove_all_pool (r_g s) e) as Q. rewrite Eg in Q. simpl in Q. simpl. rewrite Q. auto.
      - exists s. assert (NEV : forall a, g_ev (r_g s) a = None).
        { intros a. destruct (g_ev (r_g s) a) as [k|] eqn:Q; auto. exfalso. destruct (co_ev _ _ _ (proj1 (ch_inv _ _ C)) a k Q) as (v & Ha & _).
          assert (existsb (fun a => is_some (g_ev (r_g s) a)) (seq 0 (gsize (r_g s))) = true); [|congruence].
          apply existsb_exists. exists a. split. apply in_seq. pose proof (var_at_lt _ _ _ Ha). lia. rewrite Q. auto. }
        splits; auto. constructor; try apply C. intros _. apply no_evidence_clean; auto. destruct s; auto. }
    destruct R1 as (s1 & R1 & C1 & EV1 & ES1 & EV' & EA & EN1).
    assert (RH : r_h s1 = r_h s) by (rewrite ES1; auto). assert (RT : r_tuners s1 = r_tuners s) by (rewrite ES1; auto). assert (RTo : r_top s1 = r_top s) by (rewrite ES1; auto).
    assert (AB : abs (r_g s1) (bare s)).
    { constructor; simpl; auto. }
    assert (HG : goods (r_h s)) by (apply (coh_good OK P s C)).
    assert (SW : forall x, In x (all_asg (sp_vars (bare s))) -> weight_swapped (r_h s) (bare s) x = weight (r_h s) (bare s) x).
    { intros x Ix. apply (symmetric_weight (r_h s) (r_g s1)); auto. rewrite <- RH. apply (ch_inv _ _ C1). }
    assert (PW : positive (weight_swapped (r_h s) (bare s)) (bare s)).
    { destruct PO as (x & [Ix Ax] & Px). exists x. split. split; auto. rewrite SW; auto. }
    pose proof (gradient_state s1 e (bare s) C1 EV1 AB EN1 E) as GS. rewrite RH in GS.
    destruct (GS (symmetric_balanced (r_h s) _ SY) PW) as (g & r & EP & RD & K & ENg).
    assert (KV : g_vars g = g_vars (r_g s)) by (rewrite (kp_vars _ _ _ K); auto).
    assert (KA : g_all g = g_all (r_g s)) by (rewrite (kp_all _ _ _ K); auto).
    assert (KE : forall a, g_ev g a = None) by (intros a; rewrite (kp_ev _ _ _ K); simpl; auto).
    assert (VAT : forall a v, var_at (r_g s) a v -> var_at g a v) by (intros a v; unfold var_at; rewrite KV; auto).
    set (s2 := set_g s g).
    set (val := fun c => (mean (g_vars (r_g s)) samples (features (r_h s) c) - expected (weight (r_h s) (bare s)) (bare s) (features (r_h s) c))%num).
    assert (EQ : rf_gradient e it s = Ret (map val (tunable_clusters s)) s2).
    { unfold rf_gradient. rewrite R1. cbn [obind]. unfold on_g. cbn [r_h r_g set_g]. rewrite RH, EP. cbn [obind r_g set_g].
      destruct (g_pool g) eqn:PG; [|congruence]. rewrite IS. cbn [rbind r_h r_tuners set_g r_g]. rewrite RH, RT.
      assert (RM : rmap (fun t => let* a := tuner_sum (base_alpha (r_h s) samples) t in let* b := tuner_sum (base_beta (r_h s) e g) t in Ok (a - b)%num) (r_tuners s) =
        Ok (map (fun t => val (map bt_fac (bases t))) (r_tuners s))).
      { apply Res.rmap_ok. intros t It.
        assert (BT : forall b, In b (bases t) -> base_alpha (r_h s) samples b = Ok (mean (g_vars (r_g s)) samples (feature (r_h s) (bt_fac b)))).
        { intros b Ib. apply base_alpha_ok; auto. apply C. apply C. apply (TI t); auto. }
        assert (BB : forall b, In b (bases t) -> base_beta (r_h s) e g b = Ok (expected (weight_swapped (r_h s) (bare s)) (bare s) (feature (r_h s) (bt_fac b)))).
        { intros b Ib. destruct (TI t b It Ib) as [_ T]. unfold base_beta. destruct (bt_kind b); [| |destruct T].
          - destruct T as (v & FV & Ha & _). eapply unary_beta_ok; eauto. apply TR. eapply nth_error_In; eauto.
          - destruct T as (v & w & FV & Ha & Hw & _). eapply binary_beta_ok; eauto.
            + simpl. apply (ri_in _ (ch_r _ _ C)). apply in_or_app. right. apply (ri_tun _ (ch_r _ _ C)). apply in_concat. exists (map bt_fac (bases t)).
              split. apply in_map_iff; eauto. apply in_map; auto.
            + apply TR. eapply nth_error_In; eauto.
            + apply TR. eapply nth_error_In; eauto. }
        assert (SA : tuner_sum (base_alpha (r_h s) samples) t = Ok (mean (g_vars (r_g s)) samples (features (r_h s) (map bt_fac (bases t))))).
        { rewrite <- mean_features by auto. rewrite sumL_map. destruct t as [b|l]; simpl tuner_sum; simpl bases in *.
          - rewrite BT by (left; auto). f_equal. unfold sumL. simpl. ring.
          - rewrite (rfold_total _ _ _ BT). f_equal. ring. }
        assert (NM : mass (weight_swapped (r_h s) (bare s)) (bare s) (fun _ => true) <> n0) by (apply (nlt_neq' OK); eapply ready_mass; eauto).
        assert (SB : tuner_sum (base_beta (r_h s) e g) t = Ok (expected (weight_swapped (r_h s) (bare s)) (bare s) (features (r_h s) (map bt_fac (bases t))))).
        { rewrite <- expected_features by auto. rewrite sumL_map. destruct t as [b|l]; simpl tuner_sum; simpl bases in *.
          - rewrite BB by (left; auto). f_equal. unfold sumL. simpl. ring.
          - rewrite (rfold_total _ _ _ BB). f_equal. ring. }
        rewrite SA, SB. cbn [rbind]. unfold val. f_equal. f_equal. apply expected_ext. intros x Ix _. auto. }
      rewrite RM. cbn [lift]. unfold s2. rewrite ES1. unfold tunable_clusters. rewrite map_map. reflexivity. }
    exists s2. split; auto. splits; auto.
    assert (ME : mass (weight (r_h s) (bare s)) (bare s) (fun _ => true) = mass (weight_swapped (r_h s) (bare s)) (bare s) (fun _ => true)).
    { unfold mass. apply sumL_ext. intros x Ix. rewrite SW by auto. auto. }
    rewrite ME. eapply ready_mass; eauto.
  Qed.
End Run.
