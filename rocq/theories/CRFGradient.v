(** The gradient returned by a conditional random field *)
From Coq Require Import String List Arith Bool Lia Permutation Relations Field.
From Verif Require Import Res Num Categoric Combs Func FuncProofs GroupProofs FactorProofs FactorApi Special SpecialProofs
  Graph GraphLemmas Clusters Belief Query Gibbs GraphInv EvidInv BeliefInv BigOp Tree Cycle BPStep BPRun GraphSpec Hist P_Graph BeliefSpec Sums Exact BeliefHist Queries
  Parts JointSpec Joint Train TrainHist Coherent TrainSpec Gradient TrainInv GradientRun CRF CRFHist CRFInv CRFSpec.
Import ListNotations.
Open Scope nat_scope.

Section GSpec.
  Context {N : num}.
  Variable H : nat -> func N.
  (** the hidden variables do not depend on the combination *)
  Lemma find_comb (vs : list var) : forall c a v x, NoDup (map vkey vs) -> nth_error vs a = Some v -> nth_error c a = Some x ->
    find (fun p : var * nat => String.eqb (vname (fst p)) (fst (vkey v)) && (vsize (fst p) =? snd (vkey v))) (combine vs c) = Some (v, x).
  Proof.
    induction vs as [|w vs IH]; intros [|y c] [|a] v x ND Hv Hx; simpl in *; try discriminate.
    - injection Hv as ->. injection Hx as ->. rewrite String.eqb_refl, Nat.eqb_refl. auto.
    - inversion ND; subst. destruct (String.eqb (vname w) (vname v) && (vsize w =? vsize v)) eqn:Q; [|eauto].
      exfalso. apply andb_true_iff in Q as [Q1 Q2]. apply String.eqb_eq in Q1. apply Nat.eqb_eq in Q2. apply H2. apply in_map_iff. exists v. split. unfold vkey; congruence. eapply nth_error_In; eauto.
  Qed.
  Lemma given_ev A c a v : NoDup (map vkey (sp_vars A)) -> length c = length (sp_vars A) -> nth_error (sp_vars A) a = Some v ->
    sp_ev (given A c) (vkey v) = match sp_ev A (vkey v) with None => None | Some _ => nth_error c a end.
  Proof.
    intros ND L V. unfold given. cbn [sp_ev]. destruct (sp_ev A (vkey v)); auto. destruct (nth_error c a) as [x|] eqn:X.
    - rewrite (find_comb _ _ _ _ _ ND V X). auto.
    - exfalso. apply nth_error_None in X. assert (a < length (sp_vars A)) by (apply nth_error_Some; congruence). lia.
  Qed.
  Lemma given_hidden A c v : NoDup (map vkey (sp_vars A)) -> length c = length (sp_vars A) -> (hidden (given A c) v <-> hidden A v).
  Proof.
    intros ND L. unfold hidden, sp_evidence. change (vname v, vsize v) with (vkey v). change (sp_vars (given A c)) with (sp_vars A). split; intros [J E]; split; auto; apply In_nth_error in J as (a & V).
    - rewrite (given_ev A c a v ND L V) in E. destruct (sp_ev A (vkey v)); auto. exfalso. apply nth_error_None in E. assert (a < length (sp_vars A)) by (apply nth_error_Some; congruence). lia.
    - rewrite (given_ev A c a v ND L V), E. auto.
  Qed.
  Lemma given_symmetric A c : NoDup (map vkey (sp_vars A)) -> length c = length (sp_vars A) -> symmetric H A -> symmetric H (given A c).
  Proof. intros ND L SY f v w J Hv Hw. apply SY; auto; rewrite <- (given_hidden A c); auto. Qed.
  Lemma given_edge A c v w : NoDup (map vkey (sp_vars A)) -> length c = length (sp_vars A) -> (hidden_edge H (given A c) v w <-> hidden_edge H A v w).
  Proof. intros ND L. unfold hidden_edge. rewrite !given_hidden by auto. split; auto. Qed.
  Lemma given_tree A c v : NoDup (map vkey (sp_vars A)) -> length c = length (sp_vars A) -> tree_around H A v -> tree_around H (given A c) v.
  Proof.
    intros ND L T (l & (L3 & NDl & R) & LK). apply T. exists l. split. split; auto. split; auto. intros i x y Hx Hy. rewrite <- (given_edge A c); eauto.
    intros w J. specialize (LK w J). clear -LK ND L. induction LK. apply rt_step. rewrite <- (given_edge A c); auto. apply rt_refl. eapply rt_trans; eauto.
  Qed.
  Lemma given_weight A c x : weight H (given A c) x = weight H A x.
  Proof. reflexivity. Qed.
End GSpec.

Section CRun.
  Context {N : num} (OK : num_ok N).
  Add Field NFieldCRun : (ok_field N OK).
  Notation gst := (gst (N:=N)).
  Notation rst := (rst (N:=N)).
  Implicit Types s : rst.

  Lemma keys_same (g g' : gst) : g_vars g' = g_vars g -> (forall a, g_ev g' a = None <-> g_ev g a = None) -> keys (gsize g') (g_ev g') = keys (gsize g) (g_ev g).
  Proof.
    intros E O. unfold gsize. rewrite E. unfold keys. apply filter_ext. intros a. specialize (O a). destruct (g_ev g' a), (g_ev g a); simpl; auto. destruct O as [_ O]. discriminate (O eq_refl). destruct O as [O _]. discriminate (O eq_refl).
  Qed.

  (** the evidences of a sample, when the positions are in the order of the map *)
  Lemma sample_is_evidences e pos comb l : forall s,
    (forall j a, In (j, a) l -> vget pos j = Ok a /\ exists x, vget comb a = Ok x) ->
    ofold (sample_step e pos comb) l s = ofold (one_evidence e) (map (fun p => (snd p, nth (snd p) comb 0)) l) s.
  Proof.
    induction l as [|[j a] l IH]; intros s Q; cbn [ofold map fst snd]; auto.
    assert (E : sample_step e pos comb (j, a) s = one_evidence e (a, nth a comb 0) s).
    { destruct (Q j a (or_introl eq_refl)) as (Q1 & x & Q2). unfold sample_step, one_evidence. cbn [fst snd]. destruct (node_var (r_g s) a); cbn [lift obind]; auto.
      rewrite Q1. cbn [lift obind]. rewrite Q2. cbn [lift obind]. unfold vget in Q2. destruct (nth_error comb a) as [y|] eqn:X; inversion Q2; subst. rewrite (nth_error_nth _ _ _ X). auto. }
    rewrite E. destruct (one_evidence e (a, nth a comb 0) s); cbn [obind]; auto. apply IH. intros; apply Q; right; auto.
  Qed.

  Lemma sample_evidences_ok e pos comb s : weak s -> env_ok e -> pos = evidence_order e (r_g s) -> (exists a, g_ev (r_g s) a <> None) ->
    valid_comb (map vsize (g_vars (r_g s))) comb ->
    exists g, sample_evidences e pos comb s = Ret tt (set_g s g) /\ coh True (set_g s g) /\ g_last g = None /\ g_vars g = g_vars (r_g s) /\ g_all g = g_all (r_g s) /\
      (forall a, g_ev g a = match g_ev (r_g s) a with None => None | Some _ => nth_error comb a end).
  Proof.
    intros W E EP (a0 & O0) V. pose proof (weak_cinv [] s W) as CI. pose proof (sample_evidences_weak e pos comb s W E) as SW.
    set (ks := evidence_order e (r_g s)) in *.
    assert (KO : forall a, In a ks <-> g_ev (r_g s) a <> None) by (apply order_obs; auto).
    assert (KV : forall a, In a ks -> exists v x, var_at (r_g s) a v /\ nth_error comb a = Some x /\ x < vsize v).
    { intros a J. apply KO in J. destruct (g_ev (r_g s) a) as [k|] eqn:Ea; [|congruence]. destruct (sh_ev _ _ (ci_shape _ CI) a k Ea) as (v & Hv & _).
      destruct (valid_at _ _ _ _ V Hv) as (x & Hx & L). eauto. }
    assert (EQ : sample_evidences e pos comb s = ofold (one_evidence e) (map (fun a => (a, nth a comb 0)) ks) s).
    { unfold sample_evidences. fold ks. pose proof (sample_is_evidences e pos comb (combine (seq 0 (length ks)) ks) s) as X. unfold sample_step in X at 1. rewrite X.
      - f_equal. rewrite <- (snd_combine_seq ks) at 3. rewrite map_map. auto.
      - intros j a J. rewrite EP. split.
        + unfold vget. assert (Y : nth_error ks j = Some a); [|rewrite Y; auto].
          clear -J. assert (G : forall n, In (j, a) (combine (seq n (length ks)) ks) -> nth_error ks (j - n) = Some a /\ n <= j).
          { clear J. induction ks as [|b r IH]; simpl; intros n J; [tauto|]. destruct J as [[= -> ->]|J]. rewrite Nat.sub_diag. auto.
            destruct (IH (S n) J) as [Q L]. split; [|lia]. replace (j - n) with (S (j - S n)) by lia. auto. }
          destruct (G 0 J) as [Q _]. rewrite Nat.sub_0_r in Q. auto.
        + apply in_combine_r in J. destruct (KV a J) as (v & x & _ & X1 & _). exists x. unfold vget. rewrite X1. auto. }
    set (l := map (fun a => (a, nth a comb 0)) ks) in *. rewrite EQ in *.
    assert (OL : forall p, In p l -> g_ev (r_g s) (fst p) <> None). { intros p J. apply in_map_iff in J as (a & <- & J). simpl. apply KO; auto. }
    destruct (evidences_loop e l s (ci_shape _ CI) (weak_good [] s W) E OL) as (g & Eg & RV & SH & _).
    assert (FI : forallb (fits (r_g s)) l = true).
    { apply forallb_forall. intros p J. apply in_map_iff in J as (a & <- & J). destruct (KV a J) as (v & x & Hv & Hx & L). unfold fits. cbn [fst snd]. unfold var_at in Hv. rewrite Hv, (nth_error_nth _ _ _ Hx). apply Nat.ltb_lt. auto. }
    rewrite FI in Eg. rewrite (fitting_all _ _ FI) in RV. rewrite Eg in SW. destruct SW as [SC SL].
    exists g. splits; auto. apply SL. intros Z. apply KO in O0. rewrite Z in O0. destruct O0. apply RV. apply RV.
    intros a. rewrite (rs_ev _ _ _ RV). destruct (g_ev (r_g s) a) as [k|] eqn:Ea.
    - assert (J : In a ks) by (apply KO; congruence). destruct (KV a J) as (v & x & _ & Hx & _). rewrite Hx. apply assigned_in.
      + unfold l. rewrite map_map. simpl. rewrite map_id. apply evidence_order_nd; auto.
      + apply in_map_iff. exists a. rewrite (nth_error_nth _ _ _ Hx). auto.
    - rewrite assigned_out; auto. unfold l. rewrite map_map. simpl. rewrite map_id. intros J. apply KO in J. congruence.
  Qed.

  (** the messages computed for a sample *)
  Lemma sample_state s e A : coh True s -> abs (r_g s) A -> g_last (r_g s) = None -> g_pool (r_g s) <> None -> env_ok e -> balanced (r_h s) A -> positive (weight_swapped (r_h s) A) A ->
    exists g r, propagate (r_h s) e SUM (r_g s) = Ret tt g /\ ready (r_h s) A SUM g r /\ keeps (r_h s) (r_g s) g /\ g_pool g = g_pool (r_g s).
  Proof.
    intros C AB LN EN E B P. set (H := r_h s) in *. set (g0 := r_g s) in *.
    assert (HG : goods H) by (apply (coh_good OK True s C)).
    pose proof (ch_inv _ _ C) as [C0 CS0]. fold H g0 in C0, CS0.
    assert (CL : clean g0) by (apply (ch_clean _ _ C); auto).
    pose proof (balanced_evened H g0 A C0 AB CL B) as EVN.
    destruct (positive_node H g0 A C0 AB P) as (x & XR & XO & XP).
    destruct (positive_parts OK H HG g0 A C0 CL EVN AB x XR XO XP) as (X1 & X2 & _).
    destruct (g_pool g0) as [pool|] eqn:PO; [|contradiction].
    assert (WN : would_need g0 SUM = true) by (unfold would_need; rewrite LN; auto).
    destruct (propagate_ok OK H HG (g_all g0) g0 C0 CS0 CL EVN x X1 X2 e SUM g0 pool E (keeps_refl H g0) WN PO) as (r & g & Es & El & [D1 D2 D3] & D4 & _).
    exists g, r. split; auto. split.
    - split; auto. exists g0, x, (map cl_nodes (g_cl g0)). split; [|split; auto]. constructor; auto. apply (cs_comp _ CS0).
    - split. apply D1. auto.
  Qed.

  Lemma cbase_alpha_ok s b samples : (forall f, built (r_h s f)) -> NoDup (map vkey (g_vars (r_g s))) -> ctuner_ok s b -> samples <> [] ->
    (forall c, In c samples -> valid_comb (map vsize (g_vars (r_g s))) c) ->
    base_alpha (r_h s) samples b = Ok (mean (g_vars (r_g s)) samples (feature (r_h s) (bt_fac b))).
  Proof.
    intros Hb ND [L T] NE V.
    assert (K : exists k, (match k with TUnary _ | TBinary _ _ => True | _ => False end) /\ tuner_ok s (mkBT (bt_fac b) (bt_idx b) k)).
    { destruct (bt_kind b) as [a|a c|a c first].
      - destruct T as (v & Q1 & Q2 & Q3 & _). exists (TUnary a). split; auto. split; auto. simpl. exists v. auto.
      - destruct T as (v & w & Q1 & Q2 & Q3 & Q4 & _). exists (TBinary a c). split; auto. split; auto. simpl. exists v, w. auto.
      - destruct T as (v & w & Q1 & Q2 & Q3 & Q4 & _). destruct first.
        + exists (TBinary a c). split; auto. split; auto. simpl. exists v, w. auto.
        + exists (TBinary c a). split; auto. split; auto. simpl. exists w, v. auto. }
    destruct K as (k & _ & TK). pose proof (base_alpha_ok OK s _ samples Hb ND TK NE V) as Q. exact Q.
  Qed.

  Lemma sample_pool e pos comb s : match sample_evidences e pos comb s with Ret _ t | Thr t => g_pool (r_g t) = g_pool (r_g s) | _ => True end.
  Proof.
    unfold sample_evidences. generalize (combine (seq 0 (length (evidence_order e (r_g s)))) (evidence_order e (r_g s))). intros l.
    change (match ofold (sample_step e pos comb) l s with Ret _ t | Thr t => g_pool (r_g t) = g_pool (r_g s) | _ => True end).
    revert s. induction l as [|p l IH]; cbn [ofold]; intros s; auto.
    assert (Q : match sample_step e pos comb p s with Ret _ t | Thr t => g_pool (r_g t) = g_pool (r_g s) | _ => True end).
    { unfold sample_step. destruct (node_var (r_g s) (snd p)); cbn [lift obind]; auto. destruct (vget pos (fst p)); cbn [lift obind]; auto. destruct (vget comb _); cbn [lift obind]; auto.
      unfold on_g. match goal with |- context [set_evidence ?h ?e ?g ?v ?k] => pose proof (set_pool_same h g e v k) as Q; destruct (set_evidence h e g v k) end; auto. }
    destruct (sample_step e pos comb p s) as [[] s1|s1| | |]; cbn [obind]; auto. specialize (IH s1). destruct (ofold (sample_step e pos comb) l s1); auto; congruence.
  Qed.

  (** one sample *)
  Definition sample_mean (H : nat -> func N) (A : spec) (comb : list nat) (c : list nat) : N :=
    expected (weight H (given A comb)) (given A comb) (features H c).
  Lemma one_sample s0 s e pos comb A : cinv s0 -> A = spec_of (r_g s0) -> weak s -> r_h s = r_h s0 -> frozen s0 s -> ctinv s -> g_pool (r_g s) <> None -> env_ok e ->
    pos = evidence_order e (r_g s0) -> (exists a, g_ev (r_g s0) a <> None) -> valid_comb (map vsize (g_vars (r_g s0))) comb ->
    symmetric (r_h s0) A -> (forall v, hidden A v -> tree_around (r_h s0) A v) -> positive (weight (r_h s0) A) (given A comb) ->
    exists s1 s2, sample_evidences e pos comb s = Ret tt s1 /\ on_g (propagate (r_h s1) e SUM) s1 = Ret tt s2 /\
      coh True s2 /\ r_h s2 = r_h s0 /\ frozen s0 s2 /\ ctinv s2 /\ g_pool (r_g s2) = g_pool (r_g s) /\ r_tuners s2 = r_tuners s0 /\
      (n0 < mass (weight (r_h s0) (given A comb)) (given A comb) (fun _ => true))%num /\
      forall t, In t (r_tuners s0) -> tuner_sum (base_beta (r_h s2) e (r_g s2)) t = Ok (sample_mean (r_h s0) A comb (map bt_fac (bases t))).
  Proof.
    intros CI0 EA W EH FZ CT PN E EP (a0 & O0) V SY TR PO.
    assert (ND : NoDup (map vkey (sp_vars A))). { rewrite EA. apply (sh_vars _ _ (ci_shape _ CI0)). }
    assert (LC : length comb = length (sp_vars A)). { rewrite EA. simpl. unfold valid_comb in V. clear -V. remember (map vsize (g_vars (r_g s0))) as l eqn:El. rewrite <- (map_length vsize), <- El. symmetry. clear El. induction V; simpl; congruence. }
    pose proof (weak_cinv [] s W) as CI.
    destruct (sample_evidences_ok e pos comb s W E) as (g1 & E1 & C1 & LN & V1 & A1 & EV1).
    { rewrite EP. unfold evidence_order. f_equal. unfold gsize. rewrite (fz_vars _ _ FZ). auto. rewrite <- (keys_same (r_g s0) (r_g s)); auto. apply FZ. apply FZ. }
    { exists a0. rewrite (fz_obs _ _ FZ). auto. }
    { rewrite (fz_vars _ _ FZ). auto. }
    pose proof (spec_of_abs (r_g s0) (sh_vars _ _ (ci_shape _ CI0))) as AB0. rewrite <- EA in AB0.
    set (B := given A comb). set (H := r_h s0) in *.
    assert (AB : abs g1 B).
    { constructor.
      - rewrite V1, (fz_vars _ _ FZ). apply AB0.
      - intros a v Hv. assert (Hv0 : var_at (r_g s0) a v). { unfold var_at in *. rewrite V1, (fz_vars _ _ FZ) in Hv. auto. }
        unfold B. rewrite (given_ev A comb a v ND LC). 2:{ rewrite <- (ab_vars _ _ AB0). auto. } rewrite <- (ab_ev _ _ AB0 a v Hv0). rewrite EV1.
        pose proof (fz_obs _ _ FZ a) as FO. destruct (g_ev (r_g s) a), (g_ev (r_g s0) a); auto. destruct FO as [_ FO]. discriminate (FO eq_refl). destruct FO as [FO _]. discriminate (FO eq_refl).
      - intros k NK. unfold B, given. cbn [sp_ev]. rewrite V1, (fz_vars _ _ FZ) in NK. rewrite (ab_none _ _ AB0 k NK). auto.
      - rewrite A1, (fz_all _ _ FZ). apply AB0. }
    set (s1 := set_g s g1) in *.
    assert (SB : symmetric H B) by (apply given_symmetric; auto).
    assert (SW : forall x, In x (all_asg (sp_vars B)) -> weight_swapped H B x = weight H B x).
    { intros x Ix. apply (symmetric_weight H g1); auto. pose proof (proj1 (ch_inv _ _ C1)) as Z. change (core (r_h s) g1 (g_all g1)) in Z. rewrite EH in Z. exact Z. }
    assert (PW : positive (weight_swapped H B) B).
    { destruct PO as (x & [Ix Ax] & Px). exists x. split. split; auto. rewrite SW; auto. }
    assert (P1 : g_pool (r_g s1) = g_pool (r_g s)) by (pose proof (sample_pool e pos comb s) as X; rewrite E1 in X; auto).
    assert (EH1 : r_h s1 = H) by auto.
    pose proof (sample_evidences_cst e pos comb s CI E) as FZ1. rewrite E1 in FZ1. destruct FZ1 as [CI1 FZ1]. fold s1 in CI1, FZ1.
    destruct (sample_state s1 e B C1 AB LN) as (g2 & r & E2 & RD & K & P2); auto.
    { rewrite P1. auto. } { rewrite EH1. apply symmetric_balanced; auto. } { rewrite EH1. auto. }
    rewrite EH1 in *. set (s2 := set_g s1 g2).
    assert (FZ2 : frozen s1 s2).
    { constructor; auto; cbn [r_g set_g s2]; try apply K. rewrite (kp_ev _ _ _ K). tauto. }
    assert (FZ02 : frozen s0 s2) by (eapply frozen_trans; [exact FZ|]; eapply frozen_trans; eauto).
    assert (EP2 : on_g (propagate (r_h s1) e SUM) s1 = Ret tt s2) by (unfold on_g; rewrite EH1, E2; auto).
    assert (C2 : coh True s2). { pose proof (propagate_coh e s1 C1 E) as Q. rewrite EP2 in Q. exact Q. }
    assert (CT2 : ctinv s2). { eapply ctinv_frozen; [|exact CT]. eapply frozen_trans; eauto. }
    exists s1, s2. split; auto. split; auto. split; auto. split; auto. split; auto. split; auto. split. { cbn [r_g set_g s2]. rewrite P2. auto. } split. apply FZ02.
    assert (HG : goods H). { intros f. pose proof (coh_good OK True s2 C2 f) as Z. change (r_h s2) with (r_h s) in Z. rewrite EH in Z. exact Z. }
    assert (MP : (n0 < mass (weight_swapped H B) B (fun _ => true))%num) by (eapply ready_mass; eauto).
    assert (ME : mass (weight H B) B (fun _ => true) = mass (weight_swapped H B) B (fun _ => true)).
    { unfold mass. apply sumL_ext. intros x Ix. rewrite SW by auto. auto. }
    split. { rewrite ME. auto. }
    assert (HID : forall a v, var_at (r_g s2) a v -> g_ev (r_g s2) a = None -> tree_around H B v).
    { intros a v Hv He. apply given_tree; auto. apply TR. rewrite EA. split.
      - cbn [sp_vars spec_of]. rewrite <- (fz_vars _ _ FZ02). eapply nth_error_In; exact Hv.
      - rewrite <- EA. assert (Hv0 : var_at (r_g s0) a v) by (unfold var_at in *; rewrite <- (fz_vars _ _ FZ02); auto).
        unfold sp_evidence. change (vname v, vsize v) with (vkey v). rewrite <- (ab_ev _ _ AB0 a v Hv0). apply (fz_obs _ _ FZ02). auto. }
    intros t It. unfold sample_mean. fold B. rewrite (expected_ext (weight H B) (weight_swapped H B)) by (intros; symmetry; auto).
    rewrite <- (expected_features OK) by (apply (nlt_neq' OK); auto). rewrite sumL_map.
    assert (BB : forall b, In b (bases t) -> base_beta (r_h s2) e (r_g s2) b = Ok (expected (weight_swapped H B) B (feature H (bt_fac b)))).
    { intros b Ib. assert (It2 : In t (r_tuners s2)) by (rewrite (fz_tuners _ _ FZ02); auto). destruct (CT2 t b It2 Ib) as [_ T].
      assert (RD' : ready H B SUM (r_g s2) r) by exact RD. change (r_h s2) with (r_h s) in *. rewrite EH in *.
      unfold base_beta. destruct (bt_kind b) as [a|a c|a c first].
      - destruct T as (v & FV & Ha & _ & Ev). eapply (unary_beta_ok OK); eauto.
      - destruct T as (v & w & FV & Ha & Hw & _ & Ea & Ec). eapply (binary_beta_ok OK); eauto.
        change (sp_facs B) with (sp_facs A). rewrite EA. cbn [sp_facs spec_of]. rewrite <- (fz_all _ _ FZ02). apply (ri_in _ (ch_r _ _ C2)). apply in_or_app. right. apply (ri_tun _ (ch_r _ _ C2)). apply in_concat. exists (map bt_fac (bases t)).
        split. apply in_map_iff; eauto. apply in_map; auto.
      - destruct T as (v & w & FV & Ha & Hw & _ & Ea & Ec). eapply (hidobs_beta_ok OK); eauto. }
    destruct t as [b|l]; simpl tuner_sum; simpl bases in *.
    - rewrite BB by (left; auto). f_equal. unfold sumL. simpl. ring.
    - rewrite (rfold_total OK _ _ _ BB). f_equal. ring.
  Qed.

  (** all the samples *)
  Lemma betas_ok s0 es pos coeff A : cinv s0 -> A = spec_of (r_g s0) -> (forall k, env_ok (es k)) -> (forall k, pos = evidence_order (es k) (r_g s0)) -> (exists a, g_ev (r_g s0) a <> None) ->
    symmetric (r_h s0) A -> (forall v, hidden A v -> tree_around (r_h s0) A v) ->
    forall samples, (forall comb, In comb samples -> valid_comb (map vsize (g_vars (r_g s0))) comb /\ positive (weight (r_h s0) A) (given A comb)) ->
    forall k betas s, weak s -> r_h s = r_h s0 -> frozen s0 s -> ctinv s -> g_pool (r_g s) <> None -> length betas = length (r_tuners s0) ->
    exists s', crf_betas es pos coeff k samples betas s =
        Ret (map (fun p => (snd p + coeff * sumL (fun comb => sample_mean (r_h s0) A comb (map bt_fac (bases (fst p)))) samples)%num) (combine (r_tuners s0) betas)) s' /\
      r_h s' = r_h s0 /\ frozen s0 s' /\
      (forall comb, In comb samples -> (n0 < mass (weight (r_h s0) (given A comb)) (given A comb) (fun _ => true))%num).
  Proof.
    intros CI0 EA E EP OB SY TR. induction samples as [|comb rest IH]; intros V k betas s W EH FZ CT PN LB; cbn [crf_betas].
    - exists s. split; [|split; auto; split; auto; intros ? []]. f_equal.
      assert (G : forall (ts : list tuner) (bs : list N), length bs = length ts -> bs = map (fun p => (snd p + coeff * sumL (fun comb => sample_mean (r_h s0) A comb (map bt_fac (bases (fst p)))) [])%num) (combine ts bs)).
      { induction ts as [|t ts IH]; intros [|b bs] L; simpl in *; try discriminate; auto. f_equal. unfold sumL. simpl. ring. apply IH. lia. }
      apply G; auto.
    - destruct (V comb (or_introl eq_refl)) as [V1 V2].
      destruct (one_sample s0 s (es k) pos comb A CI0 EA W EH FZ CT PN (E k) (EP k) OB V1 SY TR V2) as (s1 & s2 & Q1 & Q2 & C2 & H2 & F2 & T2 & P2 & R2 & M2 & B2).
      rewrite Q1. cbn [obind]. rewrite Q2. cbn [obind]. destruct (g_pool (r_g s2)) as [n|] eqn:PN2; [|congruence].
      rewrite R2. rewrite (Res.rmap_ok _ (fun p => (snd p + coeff * sample_mean (r_h s0) A comb (map bt_fac (bases (fst p))))%num)).
      2:{ intros [t b] J. cbn [fst snd]. rewrite B2. auto. apply in_combine_l in J. auto. }
      cbn [lift obind].
      destruct (IH (fun c J => V c (or_intror J)) (S k) (map (fun p => (snd p + coeff * sample_mean (r_h s0) A comb (map bt_fac (bases (fst p))))%num) (combine (r_tuners s0) betas)) s2) as (s' & Q & H' & F' & M'); auto.
      { apply coh_weak; auto. } { congruence. } { rewrite map_length, combine_length. lia. }
      exists s'. split; [|split; auto; split; auto; intros c [<-|J]; auto]. rewrite Q. f_equal.
      clear -OK LB. generalize dependent betas. generalize (r_tuners s0) as ts. induction ts as [|t ts IH]; intros [|b bs] L; simpl in *; try discriminate; auto.
      f_equal; [|apply IH; lia]. unfold sumL. cbn [fold_right map fst snd]. ring.
  Qed.

  Theorem crf_gradient_ok s es pos it samples A : weak s -> ctinv s -> g_pool (r_g s) <> None -> A = spec_of (r_g s) -> (forall k, env_ok (es k)) -> (forall k, pos = evidence_order (es k) (r_g s)) ->
    (exists a, g_ev (r_g s) a <> None) -> symmetric (r_h s) A -> (forall v, hidden A v -> tree_around (r_h s) A v) ->
    iter_samples it = Ok samples -> samples <> [] ->
    (forall comb, In comb samples -> valid_comb (map vsize (g_vars (r_g s))) comb /\ positive (weight (r_h s) A) (given A comb)) ->
    exists s', crf_gradient es pos it s = Ret (map (fun c => (mean (g_vars (r_g s)) samples (features (r_h s) c) - mean_expected (r_h s) A samples (features (r_h s) c))%num) (tunable_clusters s)) s' /\
      r_h s' = r_h s /\ frozen s s' /\ (forall comb, In comb samples -> (n0 < mass (weight (r_h s) (given A comb)) (given A comb) (fun _ => true))%num).
  Proof.
    intros W CT PN EA E EP OB SY TR IS NE V. pose proof (weak_cinv [] s W) as CI.
    assert (NZ : nofnat (N:=N) (length samples) <> n0). { apply (nlt_neq' OK). apply (nofnat_pos OK). destruct samples; simpl; [congruence|lia]. }
    destruct (betas_ok s es pos (n1 / nofnat (iter_size it))%num A CI EA E EP OB SY TR samples V 0 (map (fun _ => n0) (r_tuners s)) s W eq_refl (frozen_refl s) CT PN) as (s' & Q & H' & F' & M').
    { apply map_length. }
    exists s'. split; auto. unfold crf_gradient. destruct (g_pool (r_g s)); [|congruence]. rewrite IS. cbn [lift obind].
    rewrite (Res.rmap_ok _ (fun t => mean (g_vars (r_g s)) samples (features (r_h s) (map bt_fac (bases t))))).
    2:{ intros t It.
        assert (BT : forall b, In b (bases t) -> base_alpha (r_h s) samples b = Ok (mean (g_vars (r_g s)) samples (feature (r_h s) (bt_fac b)))).
        { intros b Ib. apply cbase_alpha_ok; auto. apply CI. apply (sh_vars _ _ (ci_shape _ CI)). apply (CT t); auto. intros c J. apply V; auto. }
        rewrite <- (mean_features OK) by auto. rewrite sumL_map. destruct t as [b|l]; simpl tuner_sum; simpl bases in *.
        - rewrite BT by (left; auto). f_equal. unfold sumL. simpl. ring.
        - rewrite (rfold_total OK _ _ _ BT). f_equal. ring. }
    cbn [lift obind]. rewrite Q. cbn [obind]. f_equal. rewrite (iter_size_samples it samples IS).
    unfold tunable_clusters. rewrite map_map. generalize (r_tuners s) as ts. clear -OK NZ. induction ts as [|t ts IH]; simpl; auto. f_equal; auto.
    f_equal. unfold mean_expected, sample_mean. field. auto.
  Qed.
End CRun.
