(** The joint distribution computed by [getJointMarginalDistribution] *)
From Coq Require Import String List Arith Bool Lia Permutation Relations Field.
From Verif Require Import Res Num Categoric Combs Func FuncProofs GroupProofs FactorProofs FactorApi Special SpecialProofs
  Graph GraphLemmas Clusters Belief Query GraphInv EvidInv BeliefInv BigOp Tree Cycle BPStep BPRun GraphSpec Hist P_Graph BeliefSpec Sums Exact BeliefHist Queries
  Parts JointSpec.
Import ListNotations.
Open Scope nat_scope.

Lemma contrib_eqb_eq x y : contrib_eqb x y = true <-> x = y.
Proof.
  destruct x, y; simpl; try (split; [discriminate|intros Q; discriminate]); try (rewrite Nat.eqb_eq; split; [intros ->; auto|intros [= ->]; auto]).
  rewrite andb_true_iff, !Nat.eqb_eq. split; [intros [-> ->]; auto|intros [= -> ->]; auto].
Qed.
Lemma cadd_spec cs c : NoDup cs -> NoDup (cadd cs c) /\ forall d, In d (cadd cs c) <-> In d cs \/ d = c.
Proof.
  intros ND. unfold cadd. destruct (existsb (contrib_eqb c) cs) eqn:E.
  - split; auto. intros d. split; auto. intros [I| ->]; auto. apply existsb_exists in E as (z & Iz & Ez). apply contrib_eqb_eq in Ez. subst; auto.
  - split.
    + eapply Permutation_NoDup; [apply Permutation_cons_append|]. constructor; auto. intros I.
      assert (Q : existsb (contrib_eqb c) cs = true) by (apply existsb_exists; exists c; split; auto; apply contrib_eqb_eq; auto). congruence.
    + intros d. rewrite in_app_iff. simpl. intuition congruence.
Qed.
Lemma cadds_spec l : forall cs, NoDup cs -> NoDup (fold_left cadd l cs) /\ forall d, In d (fold_left cadd l cs) <-> In d cs \/ In d l.
Proof.
  induction l as [|c l IH]; simpl; intros cs ND. split; auto. intros; tauto.
  destruct (cadd_spec cs c ND) as [N1 M1]. destruct (IH _ N1) as [N2 M2]. split; auto. intros d. rewrite M2, M1. intuition congruence.
Qed.

Section Contrib.
  Context {N : num}.
  Variable H : nat -> func N.
  Notation gst := (gst (N:=N)).
  Variable s : gst.

  Definition loc_at (a : nat) (l : loc) : Prop := match l with LCl _ => g_ev s a = None | LEv k => g_ev s a = Some k end.
  Definition wanted (inside l : list nat) : list contrib :=
    flat_map (fun a => match g_ev s a with
                       | Some _ => []
                       | None => CMerged a :: map (fun b => if mem b inside then CFac (fac_act s a b) else CMsg a b) (keys (gsize s) (nd_act (g_node s a)))
                       end) l.
  Definition obs_of (l : list nat) : list (nat * nat) :=
    flat_map (fun a => match g_ev s a with Some k => [(a, k)] | None => [] end) l.

  Lemma contribs_ok e inside l : env_ok e ->
    (forall a lc, In (a, lc) l -> loc_at a lc /\ (g_ev s a = None -> exists m, nd_merged (g_node s a) = Some m)) ->
    forall cs inds, NoDup cs -> (forall i, In (CInd i) cs -> i < length inds) ->
    exists cs', rfold (contrib_step e s inside) l (cs, inds) = Ok (cs', inds ++ obs_of (map fst l)) /\ NoDup cs' /\
      forall c, In c cs' <-> In c cs \/ In c (wanted inside (map fst l)) \/ exists i, length inds <= i < length inds + length (obs_of (map fst l)) /\ c = CInd i.
  Proof.
    intros E. induction l as [|[a lc] l IH]; intros HL cs inds ND HI; simpl.
    - exists cs. rewrite app_nil_r. splits; auto. intros c. split; auto. intros [I|[[]|(i & L & _)]]; auto. lia.
    - destruct (HL a lc (or_introl eq_refl)) as [LA LM]. assert (HL' : forall a lc, In (a, lc) l -> loc_at a lc /\ (g_ev s a = None -> exists m, nd_merged (g_node s a) = Some m)) by (intros; apply HL; simpl; auto).
      destruct lc as [i|k]; simpl in LA; rewrite LA.
      + destruct (LM LA) as [m Em]. rewrite Em.
        rewrite (Res.rmap_ok _ (fun b => if mem b inside then CFac (fac_act s a b) else CMsg a b)).
        2:{ intros b Ib. apply (Permutation_in _ (proj1 E _ _)) in Ib. apply keys_In in Ib as (_ & c & Q). change (act s a b = Some c) in Q.
            unfold fac_act. rewrite Q. auto. }
        cbn [rbind].
        set (more := CMerged a :: map (fun b => if mem b inside then CFac (fac_act s a b) else CMsg a b) (e_ord e a (keys (gsize s) (nd_act (g_node s a))))).
        destruct (cadds_spec more cs ND) as [N1 M1].
        destruct (IH HL' (fold_left cadd more cs) inds N1) as (cs' & Q & N2 & M2).
        { intros j I. apply M1 in I as [I|I]; auto. exfalso. unfold more in I. destruct I as [I|I]; [discriminate|]. apply in_map_iff in I as (b & Q & _). destruct (mem b inside); discriminate. }
        exists cs'. split; [exact Q|]. split; [auto|]. intros c. rewrite M2, M1, in_app_iff.
        assert (MM : In c more <-> In c (CMerged a :: map (fun b => if mem b inside then CFac (fac_act s a b) else CMsg a b) (keys (gsize s) (nd_act (g_node s a))))).
        { unfold more. simpl. rewrite !in_map_iff. split; intros [Z|(b & Z & Ib)]; auto; right; exists b; (split; [exact Z|]).
          - exact (Permutation_in _ (proj1 E _ _) Ib).
          - exact (Permutation_in _ (Permutation_sym (proj1 E _ _)) Ib). }
        simpl in MM. simpl. tauto.
      + destruct (cadd_spec cs (CInd (length inds)) ND) as [N1 M1]. cbn [rbind].
        destruct (IH HL' (cadd cs (CInd (length inds))) (inds ++ [(a, k)]) N1) as (cs' & Q & N2 & M2).
        { intros j I. rewrite app_length. simpl. apply M1 in I as [I|I]. apply HI in I. lia. injection I as ->. lia. }
        exists cs'. rewrite <- app_assoc in Q. split; [exact Q|]. split; [auto|]. intros c. rewrite M2, M1, app_length. simpl.
        split.
        * intros [[I| ->]|[I|(j & L & ->)]]; auto. right; right. exists (length inds). split; auto. lia. right; right. exists j. split; auto. lia.
        * intros [I|[I|(j & L & ->)]]; auto. destruct (Nat.eq_dec j (length inds)) as [->|]; auto. right; right. exists j. split; auto. lia.
  Qed.
End Contrib.

Section Pick.
  Context {N : num} (OK : num_ok N).
  Variable H : nat -> func N.
  Notation gst := (gst (N:=N)).
  Variable s : gst.
  Variable A : spec.
  Hypothesis C : core H s (g_all s).
  Hypothesis AB : abs s A.

  Lemma total_pick k W P Q R y : wnonneg s W -> Permutation (hid s) (Q ++ R) -> (forall b, ~ In b Q -> y b = x_ev s b) -> (forall q, In q Q -> y q < szn s q) ->
    (forall z, P (asg_of s z) = true -> forall q, In q Q -> z q = y q) ->
    (forall z, obs_ok s z -> (forall q, In q Q -> z q = y q) -> P (asg_of s z) = true) ->
    total A k W P = osum k (szn s) R (fun z => W (asg_of s z)) y.
  Proof.
    intros NN PM YX YR P1 P2. rewrite (total_nodes OK H s A C AB) by auto.
    assert (EA : forall y z, (forall a, y a = z a) -> asg_of s y = asg_of s z).
    { intros y1 y2 E. unfold asg_of. f_equal. apply map_ext. auto. }
    set (F := fun z => if P (asg_of s z) then W (asg_of s z) else n0).
    assert (EF : ext F) by (intros y1 y2 E; unfold F; rewrite (EA _ _ E); auto).
    assert (NDQ : NoDup (Q ++ R)) by (eapply Permutation_NoDup; [exact PM|apply hid_NoDup]).
    assert (HQ : forall b, In b (Q ++ R) -> b < gsize s /\ g_ev s b = None) by (intros b I; apply hid_In, (Permutation_in _ (Permutation_sym PM)); auto).
    destruct (NoDup_app_parts _ _ NDQ) as [ND1 ND2].
    assert (RG : forall w, varies (szn s) R y w -> (forall a, a < gsize s -> w a < szn s a) /\ obs_ok s w /\ forall q, In q Q -> w q = y q).
    { intros w [V1 V2].
      assert (WQ : forall q, In q Q -> w q = y q) by (intros q Iq; apply V1; intros J; eapply (NoDup_disjoint Q R); eauto).
      assert (WE : forall b k, g_ev s b = Some k -> w b = k).
      { intros b m Eb. rewrite V1, YX. apply x_ev_ok; auto. intros J. destruct (HQ b) as [_ Z]. apply in_app_iff; auto. congruence.
        intros J. destruct (HQ b) as [_ Z]. apply in_app_iff; auto. congruence. }
      splits; auto. intros b Lb. destruct (in_dec Nat.eq_dec b R) as [I|I]; auto. destruct (in_dec Nat.eq_dec b Q) as [J|J]. rewrite WQ; auto.
      destruct (g_ev s b) as [m|] eqn:E.
      - rewrite (WE b m E). destruct (co_ev _ _ _ C b m E) as (v & Hv & Lm). rewrite (szn_at _ _ _ Hv). auto.
      - exfalso. assert (I' : In b (hid s)) by (apply hid_In; auto). apply (Permutation_in _ PM), in_app_iff in I' as [I'|I']; auto. }
    rewrite (osum_perm OK k (szn s) _ _ PM (hid_NoDup s) F _ EF), osum_app.
    rewrite (osum_agree k (szn s) Q (osum k (szn s) R F) (x_ev s) y).
    - rewrite (osum_obs OK k (szn s) Q ND1); auto.
      + apply (osum_ext OK); auto. intros w V. destruct (RG w V) as (_ & W2 & W3). unfold F. rewrite P2; auto.
      + apply osum_is_ext; auto.
      + intros z b Ib NE. apply (osum_0 OK); auto. intros w [V1 _]. unfold F. destruct (P (asg_of s w)) eqn:Ep; auto. exfalso. apply NE.
        rewrite <- (V1 b). apply P1; auto. intros J. eapply (NoDup_disjoint Q R); eauto.
      + apply (osum_nonneg OK); auto. intros w V. unfold F. destruct (P _); [|apply (nle_refl OK)]. apply NN. apply RG; auto.
    - apply osum_is_ext; auto.
    - intros b Nb. symmetry. auto.
  Qed.
End Pick.

Section JointExact.
  Context {N : num} (OK : num_ok N).
  Add Field NFieldJoint : (ok_field N OK).
  Variable H : nat -> func N.
  Hypothesis HG : goods H.
  Notation gst := (gst (N:=N)).
  Implicit Types s : gst.
  Notation core := (core H).
  Notation W := (weight_swapped H).

  (** the part of the query that follows the propagation *)
  Definition joint_of e s (g : group) : res (func N) :=
    let* locs := rmap (fun v => match locate s v with Some l => Ok l | None => Throw end) (g_soup g) in
    let inside := map fst locs in
    let* (cs, inds) := rfold (contrib_step e s inside) locs ([], []) in
    let* fs := rmap (contrib_factor H s inds) (permute (e_ord e (gsize s)) cs) in
    let* f := factor_merge (permute (e_ord e (gsize s))) fs in
    clone_permuted f g.
  Lemma get_joint_eq e g n s : get_joint H e g n s = (do (_, s) <- check_propagation H e SUM n s ;; lift (joint_of e s g) s).
  Proof.
    unfold get_joint, joint_of. destruct (check_propagation H e SUM n s) as [[] s'| | | |]; simpl; auto.
    destruct (rmap _ (g_soup g)); simpl; auto.
  Qed.

  Lemma prodL_scaled {T} (f h : T -> (nat -> nat) -> N) (P : (nat -> nat) -> Prop) l :
    (forall q, In q l -> exists c, (n0 < c)%num /\ forall y, P y -> f q y = (c * h q y)%num) ->
    exists c, (n0 < c)%num /\ forall y, P y -> prodL (fun q => f q y) l = (c * prodL (fun q => h q y) l)%num.
  Proof.
    induction l as [|q l IH]; simpl; intros Q.
    - exists n1. split. apply nlt_0_1; auto. intros; ring.
    - destruct (Q q (or_introl eq_refl)) as (c1 & P1 & E1). destruct IH as (c2 & P2 & E2). intros; apply Q; auto.
      exists (c1 * c2)%num. split. apply ok_mul; auto. intros y Py. rewrite E1, E2 by auto. ring.
  Qed.

  Section Ready.
    Variables (A : spec) (e : env) (s s0 : gst) (x : nat -> nat) (ls : list (list nat)) (fl : list (bool * nat)).
    Hypothesis E : env_ok e.
    Hypothesis PP : prepared H A s0 x ls.
    Hypothesis ST : st H s0 x s.
    Hypothesis DN : Forall2 (done_for H s0 SUM s) ls fl.
    Hypothesis SY : symmetric H A.
    Variable g : group.
    Let vs := g_soup g.
    Hypothesis WG : wf_group g.
    Hypothesis NE : vs <> [].
    Hypothesis KN : forall v, In v vs -> In v (sp_vars A).
    Hypothesis TR : forall v, In v vs -> hidden A v -> tree_around H A v.
    Hypothesis JI : joined_inside H A vs.
    Hypothesis OO : one_observed A vs.

    Let C0 := pp_core _ _ _ _ _ PP.
    Let CL0 := pp_clean _ _ _ _ _ PP.
    Let AB := pp_abs _ _ _ _ _ PP.
    Let LS := pp_comp _ _ _ _ _ PP.
    Let K := proj1 ST.
    Let MG := proj2 ST.
    Let C : core s (g_all s).
    Proof. pose proof (keeps_core H _ _ _ K C0) as Q. rewrite (kp_all _ _ _ K). exact Q. Qed.

    Lemma vat a v : var_at s a v <-> var_at s0 a v.
    Proof. unfold var_at. rewrite (kp_vars _ _ _ K). tauto. Qed.
    Lemma eva a : g_ev s a = g_ev s0 a.
    Proof. rewrite (kp_ev _ _ _ K). auto. Qed.

    Lemma nodes_found : exists ll, rmap (fun v => match locate s v with Some l => Ok l | None => Throw end) vs = Ok ll /\
      Forall2 (fun v l => var_at s0 (fst l) v /\ loc_at s (fst l) (snd l)) vs ll.
    Proof.
      apply Queries.rmap_ok. intros v Iv. apply KN in Iv. rewrite <- (ab_vars _ _ AB) in Iv. apply In_nth_error in Iv as [a Ha].
      change (var_at s0 a v) in Ha. unfold locate. rewrite (proj2 (find_node_spec s v a (co_vars _ _ _ C))) by (exists v; split; auto; apply vat; auto).
      destruct (g_ev s a) as [k|] eqn:Ev.
      - exists (a, LEv k). simpl. auto.
      - destruct (find_pos _ _); eexists; (split; [reflexivity|]); simpl; auto.
    Qed.

    (** the answer for the nodes [Qa] of the variables of the group *)
    Variable ll : list (nat * loc).
    Hypothesis LL : Forall2 (fun v l => var_at s0 (fst l) v /\ loc_at s (fst l) (snd l)) vs ll.
    Let Qa := map fst ll.
    Let Q := filter (fun a => negb (is_some (g_ev s a))) Qa.

    Lemma nodes_at : Forall2 (fun v a => var_at s0 a v) vs Qa.
    Proof. unfold Qa. clear - LL. induction LL as [|v l vs' ll' [Q1 _] F IH]; simpl; constructor; auto. Qed.
    Lemma nodes_In a : In a Qa <-> exists v, In v vs /\ var_at s0 a v.
    Proof.
      pose proof nodes_at as F. revert F. generalize Qa vs. clear Qa Q. intros qa vv F. split.
      - clear - F. induction F as [|v b vs' l P F IH]; simpl; [tauto|]. intros [<-|I]. exists v; auto. destruct (IH I) as (w & Iw & Hw). exists w; auto.
      - intros (v & Iv & Hv). assert (U : forall b, var_at s0 b v -> b = a) by (intros b Hb; exact (at_inj H s0 C0 b a v Hb Hv)). clear Hv. revert Iv. clear - F U.
        induction F as [|w b vs' l P F IH]; simpl; [tauto|]. intros [->|I]; auto.
    Qed.
    Lemma nodes_NoDup : NoDup Qa.
    Proof.
      apply (BeliefHist.Forall2_NoDup _ _ _ nodes_at). intros v w a Hv Hw. eapply var_at_fun; eauto. apply NoDup_vkey_NoDup. apply WG.
    Qed.
    Lemma Q_In a : In a Q <-> In a Qa /\ g_ev s0 a = None.
    Proof. unfold Q. rewrite filter_In, negb_true_iff, eva. destruct (g_ev s0 a); simpl; intuition discriminate. Qed.
    Lemma Q_NoDup : NoDup Q.
    Proof. apply NoDup_filter, nodes_NoDup. Qed.
    Lemma Q_var a : In a Q <-> exists v, In v vs /\ var_at s0 a v /\ hidden A v.
    Proof.
      rewrite Q_In, nodes_In. split.
      - intros [(v & Iv & Hv) Ev]. exists v. splits; auto. apply (hidden_at s0 A AB a v Hv). apply hid_In. split; auto. eapply var_at_lt; eauto.
      - intros (v & Iv & Hv & Hid). split; eauto. apply (hidden_at s0 A AB a v Hv) in Hid. apply hid_In in Hid. tauto.
    Qed.
    Lemma Q_hid : incl Q (hid s0).
    Proof. intros a I. apply Q_var in I as (v & _ & Hv & Hid). apply (hidden_at s0 A AB a v Hv); auto. Qed.

    Lemma Q_joined a b : In a Q -> In b Q -> linked (eact s0) (fun z => In z (hid s0)) a b -> linked (adjP (adjb s0)) (fun z => In z Q) a b.
    Proof.
      intros Ia Ib L. apply Q_var in Ia as (va & Iva & Hva & Hha). apply Q_var in Ib as (vb & Ivb & Hvb & Hhb).
      destruct (linked_at H s0 A C0 AB CL0 a b va Hva L) as (vb' & Hvb' & HL). rewrite (var_at_fun _ _ _ _ Hvb' Hvb) in HL.
      pose proof (JI va vb Iva Ivb HL) as P. clear HL Hvb' vb' L. apply clos_rt_rt1n in P. revert a Hva Iva Hha. induction P as [v|v w z (Ed & Iv & Iw) P IH]; intros a Hva Iva Hha.
      - rewrite (at_inj H s0 C0 a b v Hva Hvb). apply rt_refl.
      - pose proof Ed as (_ & Hw & _). assert (Iw' : In w (sp_vars A)) by apply Hw. rewrite <- (ab_vars _ _ AB) in Iw'. apply In_nth_error in Iw' as [c Hc]. change (var_at s0 c w) in Hc.
        eapply rt_trans; [apply rt_step|apply (IH Ivb Hvb Hhb c)]; auto. splits.
        + unfold adjP. apply adjb_eact. apply (edge_at H s0 A C0 AB CL0 a c v w); auto.
        + apply Q_var. eauto.
        + apply Q_var. eauto.
    Qed.

    Lemma Q_done S : In S ls -> exists tree, cdone H s0 SUM s S tree /\ forall q, In q S -> In q Q -> tree = true.
    Proof.
      intros IS. apply In_nth_error in IS as [i Hi]. pose proof (BeliefHist.Forall2_nth _ _ _ DN i) as D. rewrite Hi in D.
      destruct (nth_error fl i) as [f|]; [|contradiction]. destruct D as [CD _]. exists (fst f). split; auto. intros q Iq IQ.
      apply Q_var in IQ as (v & Iv & Hv & Hid). apply (cd_shape _ _ _ _ _ _ CD). apply (tree_at H s0 A C0 AB CL0 ls S q v); auto. eapply nth_error_In; eauto.
    Qed.
    Lemma in_cluster q : In q (hid s0) -> exists S tree, In S ls /\ In q S /\ cdone H s0 SUM s S tree.
    Proof.
      intros Iq. apply (Permutation_in _ (Permutation_sym (cp_perm _ _ _ LS))) in Iq. apply in_concat in Iq as (S & IS & Iq).
      destruct (Q_done S IS) as (tree & CD & _). eauto.
    Qed.
    Lemma has_merged q : In q (hid s0) -> exists m, nd_merged (g_node s q) = Some m.
    Proof. intros Iq. destruct (in_cluster q Iq) as (S & tree & IS & I & CD). apply (cd_all _ _ _ _ _ _ CD q I). Qed.
    Lemma has_msg q z : adjb s0 q z = true -> exists c m, act s q z = Some c /\ c_msg c = Some m.
    Proof.
      intros Ad. pose proof Ad as Ad'. rewrite (adjb_sym H s0 _ q z C0) in Ad'.
      assert (Iz : In z (hid s0)). { apply adjb_eact in Ad'. destruct (CL0 z q Ad') as [Ez _]. apply hid_In. split; auto. destruct Ad' as [c Q']. apply (co_act _ _ _ C0) in Q'. apply link_lt in Q'. tauto. }
      destruct (in_cluster z Iz) as (S & tree & IS & I & CD). apply (cd_has _ _ _ _ _ _ CD z q I Ad').
    Qed.

    (** the expected contributions *)
    Let ob := obs_of s Qa.
    Definition parts : list contrib :=
      map CMerged Q ++ flat_map (fun q => map (CMsg q) (outer s0 Q q)) Q ++ map CFac (edge_facs s0 Q) ++ map CInd (seq 0 (length ob)).

    Lemma nbs_eq a : keys (gsize s) (nd_act (g_node s a)) = nbs s0 a.
    Proof. apply (keeps_keys H _ _ a K). Qed.
    Lemma mem_Q a b : adjb s0 a b = true -> mem b Qa = mem b Q.
    Proof.
      intros Ad. apply adjb_eact in Ad. destruct (CL0 a b Ad) as [_ Eb]. apply eq_true_iff_eq. rewrite !mem_In, Q_In. tauto.
    Qed.
    Lemma fac_eq a b : fac_act s a b = fac_act s0 a b.
    Proof.
      unfold fac_act. pose proof (kp_act _ _ _ K a b) as P. destruct (act s a b), (act s0 a b); simpl in P; try discriminate; auto. injection P as P _. auto.
    Qed.

    Lemma wanted_parts c : In c (wanted s Qa Qa) \/ (exists i, 0 <= i < 0 + length ob /\ c = CInd i) <-> In c parts.
    Proof.
      unfold parts, wanted. rewrite !in_app_iff, in_flat_map. rewrite !in_map_iff, in_flat_map. split.
      - intros [(a & Ia & Ic)|(i & L & ->)].
        + destruct (g_ev s a) eqn:Ev; [contradiction|]. assert (IQ : In a Q) by (apply Q_In; rewrite <- eva; auto).
          destruct Ic as [<-|Ic]. left; eauto. apply in_map_iff in Ic as (b & <- & Ib). rewrite nbs_eq in Ib. pose proof Ib as Ad. apply (nbs_In H _ s0 C0) in Ad.
          rewrite (mem_Q a b Ad). destruct (mem b Q) eqn:M.
          * right; right; left. exists (fac_act s a b). split; auto. apply mem_In in M. rewrite fac_eq. apply adjb_eact in Ad as [d Ad].
            unfold fac_act. rewrite Ad. apply (edge_In' H s0 C0 Q a b d); auto.
          * right; left. exists a. split; auto. apply in_map_iff. exists b. split; auto. unfold outer. apply filter_In. rewrite M. auto.
        + right; right; right. exists i. split; auto. apply in_seq. lia.
      - intros [(q & <- & Iq)|[(q & Iq & Ic)|[(f & <- & If)|(i & <- & Ii)]]].
        + left. exists q. apply Q_In in Iq as [Iq Ev]. split; auto. rewrite eva, Ev. simpl; auto.
        + left. exists q. pose proof Iq as IQ. apply Q_In in Iq as [Iq Ev]. split; auto. rewrite eva, Ev. right. apply in_map_iff in Ic as (b & <- & Ib). apply in_map_iff. exists b.
          unfold outer in Ib. apply filter_In in Ib as [Ib M]. rewrite nbs_eq. split; auto. rewrite (mem_Q q b). apply negb_true_iff in M. rewrite M. auto. apply (nbs_In H _ s0 C0); auto.
        + left. apply (edge_In s0) in If as (a & b & c & Ia & Ib & Ea & <-). exists a. pose proof Ia as IQ. apply Q_In in Ia as [Ia Ev]. split; auto. rewrite eva, Ev. right.
          apply in_map_iff. exists b. assert (Ad : adjb s0 a b = true) by (apply adjb_eact; exists c; auto). rewrite (mem_Q a b Ad), (proj2 (mem_In b Q) Ib), fac_eq, nbs_eq. split.
          unfold fac_act. rewrite Ea. auto. apply (nbs_In H _ s0 C0); auto.
        + right. exists i. apply in_seq in Ii. split; [lia|auto].
    Qed.
    Lemma parts_NoDup : NoDup parts.
    Proof.
      pose proof Q_NoDup as NQ. unfold parts. apply NoDup_app_intro; [|apply NoDup_app_intro; [|apply NoDup_app_intro|]|].
      - apply FinFun.Injective_map_NoDup; auto. intros a b [= ->]; auto.
      - apply NoDup_flat_map; auto.
        + intros a _. apply FinFun.Injective_map_NoDup. intros p q [= ->]; auto. apply NoDup_filter, keys_NoDup.
        + intros a b c _ _ I J. apply in_map_iff in I as (p & <- & _). apply in_map_iff in J as (q & Z & _). congruence.
      - apply FinFun.Injective_map_NoDup. intros a b [= ->]; auto. apply (edge_NoDup H s0 C0); auto.
      - apply FinFun.Injective_map_NoDup. intros a b [= ->]; auto. apply seq_NoDup.
      - intros c I J. apply in_map_iff in I as (p & <- & _). apply in_map_iff in J as (q & Z & _). discriminate.
      - intros c I J. apply in_flat_map in I as (q & _ & I). apply in_map_iff in I as (p & <- & _). apply in_app_iff in J as [J|J]; apply in_map_iff in J as (z & Z & _); discriminate.
      - intros c I J. apply in_map_iff in I as (p & <- & _). apply in_app_iff in J as [J|J]. apply in_flat_map in J as (q & _ & J). apply in_map_iff in J as (z & Z & _); discriminate.
        apply in_app_iff in J as [J|J]; apply in_map_iff in J as (z & Z & _); discriminate.
    Qed.

    Lemma contribs_are : exists cs, rfold (contrib_step e s Qa) ll ([], []) = Ok (cs, ob) /\ Permutation cs parts.
    Proof.
      destruct (contribs_ok H s e Qa ll E) with (cs := @nil contrib) (inds := @nil (nat * nat)) as (cs & Eq & ND & M).
      - intros a lc I. assert (X : loc_at s a lc /\ In a Qa).
        { split; [|unfold Qa; apply in_map_iff; exists (a, lc); auto]. clear - LL I. induction LL as [|v l vs' ll' [_ P] F IH]; simpl in I; [tauto|]. destruct I as [->|I]; auto. }
        destruct X as [LA IQ]. split; auto. intros Ev. apply has_merged. apply Q_hid, Q_In. rewrite <- eva. auto.
      - constructor.
      - intros i [].
      - exists cs. split; [exact Eq|]. apply NoDup_Permutation; auto. apply parts_NoDup. intros c. rewrite M. rewrite <- wanted_parts. unfold ob, Qa. simpl. tauto.
    Qed.

    (** the values of the contributions *)
    Definition yof (a : var -> nat) (b : nat) : nat :=
      if mem b Q then match nth_error (g_vars s0) b with Some v => a v | None => 0 end else x_ev s0 b.
    Lemma yof_at a b v : In b Q -> var_at s0 b v -> yof a b = a v.
    Proof. intros Ib Hb. unfold yof. rewrite (proj2 (mem_In b Q) Ib). unfold var_at in Hb. rewrite Hb. auto. Qed.
    Lemma yof_out a b : ~ In b Q -> yof a b = x_ev s0 b.
    Proof. intros Ib. unfold yof. rewrite (proj2 (mem_false b Q) Ib). auto. Qed.
    Lemma yof_range a q : proper a vs -> In q Q -> yof a q < szn s0 q.
    Proof.
      intros P Iq. pose proof Iq as IQ. apply Q_var in Iq as (v & Iv & Hv & _). rewrite (yof_at a q v IQ Hv), (szn_at _ _ _ Hv). auto.
    Qed.
    Lemma yof_obs a : obs_ok s0 (yof a).
    Proof. intros b k Eb. rewrite yof_out. apply x_ev_ok; auto. intros I. apply Q_In in I as [_ I]. congruence. Qed.

    Definition mg q : func N := match nd_merged (g_node s q) with Some m => m | None => H 0 end.
    Definition ind_val (a : var -> nat) (k : nat) : N :=
      match nth_error ob k with
      | Some (b, o) => match nth_error (g_vars s0) b with Some v => if Nat.eqb o (a v) then n1 else n0 | None => n1 end
      | None => n1
      end.
    Definition cval (a : var -> nat) (c : contrib) : N :=
      match c with
      | CMerged q => uval (mg q) (yof a q)
      | CMsg q z => mval s z q (yof a q)
      | CFac f => swapped H A f (asg_of s0 (yof a))
      | CInd k => ind_val a k
      end.

    Lemma ob_In b o : In (b, o) ob <-> In b Qa /\ g_ev s0 b = Some o.
    Proof.
      unfold ob, obs_of. rewrite in_flat_map. split.
      - intros (a & Ia & I). rewrite eva in I. destruct (g_ev s0 a) eqn:Ev; [|contradiction]. destruct I as [[= <- <-]|[]]. auto.
      - intros [Ib Ev]. exists b. split; auto. rewrite eva, Ev. simpl; auto.
    Qed.
    Lemma ob_one : length ob <= 1.
    Proof.
      assert (ND : NoDup ob).
      { unfold ob, obs_of. apply NoDup_flat_map. apply nodes_NoDup.
        - intros a _. destruct (g_ev s a); repeat constructor. intros [].
        - intros a b [c o] _ _ I J. destruct (g_ev s a); [|contradiction]. destruct (g_ev s b); [|contradiction]. destruct I as [[= <- _]|[]]. destruct J as [[= <- _]|[]]. auto. }
      assert (EQ : forall p q, In p ob -> In q ob -> p = q).
      { intros [b o] [c o'] I J. apply ob_In in I as [I Eb]. apply ob_In in J as [J Ec]. apply nodes_In in I as (v & Iv & Hv). apply nodes_In in J as (w & Iw & Hw).
        assert (v = w). { apply OO; auto. rewrite (obs_at s0 A AB b v Hv), Eb. auto. rewrite (obs_at s0 A AB c w Hw), Ec. auto. }
        subst w. assert (b = c) by (eapply (at_inj H s0 C0); eauto). subst c. congruence. }
      destruct ob as [|p [|q l]]; simpl; auto. exfalso. inversion ND as [|? ? NI _]; subst. apply NI. rewrite (EQ q p); simpl; auto.
    Qed.

    Lemma key_single (v : var) : NoDup (map vkey [v]).
    Proof. simpl. repeat constructor. intros []. Qed.

    Lemma u_pos q v : In q (hid s0) -> var_at s0 q v -> x q < vsize v /\ (n0 < uw H s0 q (x q))%num.
    Proof.
      intros Iq Hv. apply hid_In in Iq as [L Ev]. rewrite <- (szn_at _ _ _ Hv).
      apply (positive_parts OK H HG s0 A C0 CL0 (pp_even _ _ _ _ _ PP) AB x (pp_range _ _ _ _ _ PP) (pp_obs _ _ _ _ _ PP) (pp_pos _ _ _ _ _ PP)); auto.
    Qed.
    Lemma mg_scaled q v : In q (hid s0) -> var_at s0 q v -> nd_merged (g_node s q) = Some (mg q) /\ scaled v (mg q) (uw H s0 q).
    Proof.
      intros Iq Hv. destruct (has_merged q Iq) as [m Em]. unfold mg. rewrite Em. split; auto. destruct (u_pos q v Iq Hv) as [L P]. apply hid_In in Iq as [Lq Ev].
      apply (merged_for_scaled OK H HG s0 (g_all s0) q v m); auto.
      - exists (x q). split; auto. apply (nlt_neq' OK); auto.
      - destruct (kp_merged _ _ _ K q m Em) as [Z|Z]; auto. apply (co_merged _ _ _ C0 q m Ev Z).
    Qed.

    Lemma contrib_is c : In c parts -> exists h, contrib_factor H s ob c = Ok h /\ wf_func h /\ NoDup (map vkey (f_vars h)) /\ incl (f_vars h) vs /\
      forall a, proper a vs -> fval h (map a (f_vars h)) = cval a c.
    Proof.
      intros I. unfold parts in I. apply in_app_iff in I as [I|I]; [|apply in_app_iff in I as [I|I]; [|apply in_app_iff in I as [I|I]]].
      - apply in_map_iff in I as (q & <- & Iq). pose proof (Q_hid q Iq) as Ih. pose proof Iq as Iq'. apply Q_var in Iq' as (v & Iv & Hv & _).
        destruct (mg_scaled q v Ih Hv) as [Em ((Wm & Vm) & _)]. exists (mg q). simpl contrib_factor. rewrite Em. splits; auto.
        + rewrite Vm. apply key_single.
        + rewrite Vm. intros w [<-|[]]; auto.
        + intros a Pa. rewrite Vm. simpl. unfold uval. rewrite (yof_at a q v Iq Hv). auto.
      - apply in_flat_map in I as (q & Iq & I). apply in_map_iff in I as (z & <- & Iz). unfold outer in Iz. apply filter_In in Iz as [Iz _]. apply (nbs_In H _ s0 C0) in Iz.
        destruct (has_msg q z Iz) as (c & m & Ec & Em). pose proof Iq as Iq'. apply Q_var in Iq' as (v & Iv & Hv & _).
        destruct (MG z q c m v Ec Em Hv) as ((Wm & Vm) & _). exists m. simpl contrib_factor. rewrite Ec, Em. splits; auto.
        + rewrite Vm. apply key_single.
        + rewrite Vm. intros w [<-|[]]; auto.
        + intros a Pa. rewrite Vm. simpl. unfold mval. rewrite Ec, Em. unfold uval. rewrite (yof_at a q v Iq Hv). auto.
      - apply in_map_iff in I as (f & <- & If). exists (H f). simpl contrib_factor. destruct (HG f) as ((Wf & NDf & _) & _).
        apply (edge_In s0) in If as (a1 & b1 & c & Ia & Ib & Ec & Ef). pose proof (co_act _ _ _ C0 _ _ _ Ec) as (Nab & Iall & va & vb & Ha & Hb & Q').
        rewrite Ef in *. pose proof Ia as Ia'. pose proof Ib as Ib'. apply Q_var in Ia' as (va' & Iva & Ha' & Hha). apply Q_var in Ib' as (vb' & Ivb & Hb' & Hhb).
        rewrite (var_at_fun _ _ _ _ Ha Ha') in *. rewrite (var_at_fun _ _ _ _ Hb Hb') in *. clear va vb Ha Hb.
        assert (OA : is_obs A va' = false) by (unfold is_obs; destruct Hha as [_ ->]; auto). assert (OB : is_obs A vb' = false) by (unfold is_obs; destruct Hhb as [_ ->]; auto).
        assert (If : In f (sp_facs A)) by (rewrite <- (ab_all _ _ AB); auto).
        splits; auto.
        + intros w Iw. unfold fvars in Q'. destruct Q' as [Q'|Q']; rewrite Q' in Iw; destruct Iw as [<-|[<-|[]]]; auto.
        + intros a Pa. unfold cval, swapped. unfold fvars in Q'.
          assert (Ya : val (asg_of s0 (yof a)) va' = a va') by (rewrite (val_asg H s0 C0 _ a1 va' Ha'); apply yof_at; auto).
          assert (Yb : val (asg_of s0 (yof a)) vb' = a vb') by (rewrite (val_asg H s0 C0 _ b1 vb' Hb'); apply yof_at; auto).
          destruct Q' as [Q'|Q']; rewrite Q', OA, OB; simpl; rewrite Ya, Yb.
          * destruct (SY f va' vb') as [SZ SV]; auto. split; auto. apply SV. auto. rewrite SZ. auto.
          * destruct (SY f vb' va') as [SZ SV]; auto. split; auto. apply SV. auto. rewrite SZ. auto.
      - apply in_map_iff in I as (k & <- & Ik). apply in_seq in Ik. pose proof ob_one as O1. assert (k = 0) by lia. subst k.
        destruct ob as [|[b o] [|p l]] eqn:Eo; simpl in Ik, O1; try lia.
        assert (Ib : In (b, o) ob) by (rewrite Eo; simpl; auto). apply ob_In in Ib as [Ib Ev]. apply nodes_In in Ib as (v & Iv & Hv).
        destruct (co_ev _ _ _ C0 b o Ev) as (v' & Hv' & Lo). rewrite (var_at_fun _ _ _ _ Hv' Hv) in Lo.
        destruct (indicator_ok (N:=N) v o Lo) as (h & Eh & (Wh & Vh) & _ & _ & Uh). exists h. simpl contrib_factor. unfold node_var, vget.
        apply vat in Hv as Hs. unfold var_at in Hs. rewrite Hs. cbn [rbind]. splits; auto.
        + rewrite Vh. apply key_single.
        + rewrite Vh. intros w [<-|[]]; auto.
        + intros a Pa. rewrite Vh. simpl. unfold ind_val. rewrite Eo. simpl. unfold var_at in Hv. rewrite Hv. apply (Uh (a v)). auto.
    Qed.

    Lemma takes_all_true c z : takes_all vs c z = true <-> map (val z) vs = c.
    Proof. unfold takes_all. destruct (list_eq_dec Nat.eq_dec (map (val z) vs) c); split; auto; discriminate. Qed.

    Lemma var_node v : In v vs -> exists b, var_at s0 b v /\ In b Qa.
    Proof.
      intros Iv. pose proof (KN v Iv) as Ik. rewrite <- (ab_vars _ _ AB) in Ik. apply In_nth_error in Ik as [b Hb]. exists b. split; auto. apply nodes_In. eauto.
    Qed.

    (** the weight of the values [a] of the variables of the group *)
    Definition ind_all (a : var -> nat) : N := prodL (ind_val a) (seq 0 (length ob)).
    Lemma total_group a R : proper a vs -> Permutation (hid s0) (Q ++ R) ->
      total A SUM (W A) (takes_all vs (map a vs)) = (ind_all a * osum SUM (szn s0) R (fun y => W A (asg_of s0 y)) (yof a))%num.
    Proof.
      intros Pa PM. pose proof ob_one as O1.
      assert (CS : (ind_all a = n1 /\ forall b o v, g_ev s0 b = Some o -> var_at s0 b v -> In v vs -> a v = o) \/
                   (ind_all a = n0 /\ exists b o v, g_ev s0 b = Some o /\ var_at s0 b v /\ In v vs /\ a v <> o)).
      { unfold ind_all. destruct ob as [|[b o] [|p l]] eqn:Eo; simpl in O1; try lia.
        - left. split; auto. intros b o v Ev Hv Iv. exfalso. assert (I : In (b, o) ob) by (apply ob_In; split; auto; apply nodes_In; eauto). rewrite Eo in I. auto.
        - assert (Ib : In (b, o) ob) by (rewrite Eo; simpl; auto). apply ob_In in Ib as [Ib Ev]. apply nodes_In in Ib as (v & Iv & Hv).
          assert (IV : ind_val a 0 = if Nat.eqb o (a v) then n1 else n0) by (unfold ind_val; rewrite Eo; simpl; unfold var_at in Hv; rewrite Hv; auto).
          change (prodL (ind_val a) (seq 0 (length [(b, o)]))) with (ind_val a 0 * n1)%num. rewrite IV. destruct (Nat.eqb_spec o (a v)) as [Eq|Ne].
          + left. split. ring. intros b' o' v' Ev' Hv' Iv'. assert (I : In (b', o') ob) by (apply ob_In; split; auto; apply nodes_In; eauto). rewrite Eo in I.
            destruct I as [[= <- <-]|[]]. rewrite (var_at_fun s0 b v' v Hv' Hv). auto.
          + right. split. ring. exists b, o, v. splits; auto. }
      destruct CS as [[-> MT]|[-> (b & o & v & Ev & Hv & Iv & Ne)]].
      - rewrite (total_pick OK H s0 A C0 AB SUM (W A) (takes_all vs (map a vs)) Q R (yof a)); auto. ring.
        + apply (w_nonneg OK H HG s0 A C0 (pp_even _ _ _ _ _ PP) AB).
        + intros b Nb. apply yof_out; auto.
        + intros q Iq. apply yof_range; auto.
        + intros z Tz q Iq. apply takes_all_true in Tz. pose proof Iq as Iq'. apply Q_var in Iq' as (v & Iv & Hv & _). rewrite (yof_at a q v Iq Hv).
          rewrite <- (val_asg H s0 C0 z q v Hv). assert (M : forall w, In w vs -> val (asg_of s0 z) w = a w).
          { clear - Tz. induction vs as [|w l IH]; simpl in *; [tauto|]. injection Tz as T1 T2. intros u [<-|I]; auto. }
          auto.
        + intros z Oz Zq. apply takes_all_true. apply map_ext_in. intros v Iv. destruct (var_node v Iv) as (b & Hb & Ib). rewrite (val_asg H s0 C0 z b v Hb).
          destruct (g_ev s0 b) as [o|] eqn:Ev. rewrite (Oz b o Ev). symmetry. apply (MT b o v); auto.
          assert (IQ : In b Q) by (apply Q_In; auto). rewrite (Zq b IQ). apply yof_at; auto.
      - unfold total. replace (_ * _)%num with (n0 : N) by ring. apply (bigL_0 OK). intros z Iz. destruct (agrees A z && takes_all vs (map a vs) z) eqn:T; auto. exfalso.
        apply andb_true_iff in T as [T1 T2]. apply takes_all_true in T2. rewrite <- (ab_vars _ _ AB) in Iz. destruct (asg_range s0 z Iz) as (y & -> & _).
        apply (agrees_obs H s0 A C0 AB) in T1. assert (M : val (asg_of s0 y) v = a v).
        { clear - T2 Iv. induction vs as [|w l IH]; simpl in *; [tauto|]. injection T2 as T1 T2. destruct Iv as [<-|I]; auto. }
        rewrite (val_asg H s0 C0 y b v Hv) in M. rewrite (T1 b o Ev) in M. auto.
    Qed.

    Lemma parts_value : exists c, (n0 < c)%num /\ forall a, proper a vs -> prodL (cval a) parts = (c * total A SUM (W A) (takes_all vs (map a vs)))%num.
    Proof.
      destruct (prodL_scaled (fun q y => uval (mg q) (y q)) (fun q y => uw H s0 q (y q)) (fun y => forall q, In q Q -> y q < szn s0 q) Q) as (c1 & P1 & E1).
      { intros q Iq. pose proof Iq as Iq'. apply Q_var in Iq' as (v & Iv & Hv & _). destruct (mg_scaled q v (Q_hid q Iq) Hv) as [_ (_ & _ & (c & Pc & Ec) & _)].
        exists c. split; auto. intros y R. apply Ec. rewrite <- (szn_at _ _ _ Hv). auto. }
      destruct (parts_total OK H HG s0 A C0 CL0 (pp_even _ _ _ _ _ PP) AB x (pp_range _ _ _ _ _ PP) (pp_obs _ _ _ _ _ PP) (pp_pos _ _ _ _ _ PP) ls LS
        SUM s ST (or_introl eq_refl) Q Q_NoDup Q_hid Q_joined Q_done) as (R & c2 & PM & P2 & E2).
      exists (c1 / c2)%num. split. apply (ndiv_pos OK); auto. intros a Pa. rewrite (total_group a R Pa PM). rewrite (E2 (yof a)); [|apply yof_obs|intros q Iq; apply yof_range; auto].
      unfold parts. rewrite !(prodL_app OK), !prodL_map, (prodL_flat_map OK). cbn [cval]. rewrite (E1 (yof a)) by (intros q Iq; apply yof_range; auto).
      rewrite (edge_wt OK H s0 A C0 AB CL0 (yof a) Q Q_hid). unfold locals, wt, ind_all.
      rewrite (prodL_ext (fun q => prodL (cval a) (map (CMsg q) (outer s0 Q q))) (fun q => prodL (fun z => mval s z q (yof a q)) (outer s0 Q q)) Q).
      2:{ intros q _. rewrite prodL_map. auto. }
      change (prodL (fun k => ind_val a k) (seq 0 (length ob))) with (prodL (ind_val a) (seq 0 (length ob))). field. apply (nlt_neq' OK); auto.
    Qed.

    Hypothesis Ell : rmap (fun v => match locate s v with Some l => Ok l | None => Throw end) vs = Ok ll.
    Lemma joint_ready_at : exists f, joint_of e s g = Ok f /\ f_group f = g /\ wf_factor f /\ f_exp f = None /\
      exists c, (n0 < c)%num /\ forall a, proper a vs -> fval f (map a vs) = (c * mass (W A) A (takes_all vs (map a vs)))%num.
    Proof.
      destruct contribs_are as (cs & Ecs & PC). unfold joint_of. fold vs. rewrite Ell. cbn [rbind]. fold Qa. rewrite Ecs. cbn [rbind].
      set (pcs := permute (e_ord e (gsize s)) cs).
      assert (PP' : Permutation pcs parts) by (rewrite <- PC; apply permute_perm; intros l; apply E).
      set (cfun := fun c => match contrib_factor H s ob c with Ok h => h | _ => H 0 end).
      assert (CF : forall c, In c pcs -> contrib_factor H s ob c = Ok (cfun c) /\ wf_func (cfun c) /\ NoDup (map vkey (f_vars (cfun c))) /\ incl (f_vars (cfun c)) vs /\
        forall a, proper a vs -> fval (cfun c) (map a (f_vars (cfun c))) = cval a c).
      { intros c Ic. apply (Permutation_in _ PP') in Ic. destruct (contrib_is c Ic) as (h & Eh & R). unfold cfun. rewrite Eh. auto. }
      rewrite (Res.rmap_ok _ cfun) by (intros c Ic; apply CF; auto). cbn [rbind].
      assert (COV : forall v, In v vs -> exists c, In c pcs /\ In v (f_vars (cfun c))).
      { intros v Iv. destruct (var_node v Iv) as (b & Hb & Ib). destruct (g_ev s0 b) as [o|] eqn:Ev.
        - assert (Io : In (b, o) ob) by (apply ob_In; auto). apply In_nth_error in Io as [k Hk].
          assert (Ic : In (CInd k) parts). { unfold parts. rewrite !in_app_iff. right; right; right. apply in_map, in_seq. split; [lia|]. simpl. apply nth_error_Some. congruence. }
          exists (CInd k). split. apply (Permutation_in _ (Permutation_sym PP')); auto. unfold cfun. simpl contrib_factor. unfold vget. rewrite Hk. cbn [rbind].
          assert (Lk : k < length ob) by (apply nth_error_Some; congruence). pose proof ob_one. destruct (Nat.ltb_spec (k + 1) (length ob)); [lia|].
          apply vat in Hb as Hs. unfold node_var, vget. unfold var_at in Hs. rewrite Hs. cbn [rbind].
          destruct (co_ev _ _ _ C0 b o Ev) as (v' & Hv' & Lo). rewrite (var_at_fun _ _ _ _ Hv' Hb) in Lo. destruct (indicator_ok (N:=N) v o Lo) as (h & Eh & (Wh & Vh) & _).
          rewrite Eh, Vh. simpl; auto.
        - assert (IQ : In b Q) by (apply Q_In; auto). exists (CMerged b). split.
          + apply (Permutation_in _ (Permutation_sym PP')). unfold parts. apply in_app_iff. left. apply in_map; auto.
          + destruct (mg_scaled b v (Q_hid b IQ) Hb) as [Em ((Wm & Vm) & _)]. unfold cfun. simpl contrib_factor. rewrite Em, Vm. simpl; auto. }
      assert (PN : pcs <> []). { assert (XV : exists v0, In v0 vs) by (destruct vs as [|v0 l]; [congruence|exists v0; simpl; auto]). destruct XV as [v0 Iv0]. destruct (COV v0 Iv0) as (c & Ic & _). intros Z. rewrite Z in Ic. auto. }
      assert (VI : forall v, (exists h, In h (map cfun pcs) /\ In v (f_vars h)) <-> In v vs).
      { intros v. split. intros (h & Ih & Iv). apply in_map_iff in Ih as (c & <- & Ic). eapply CF; eauto. intros Iv. destruct (COV v Iv) as (c & Ic & Icv). exists (cfun c). split; auto. apply in_map; auto. }
      destruct WG as [NDk PG]. fold vs in NDk.
      destruct (factor_merge_gen OK (permute (e_ord e (gsize s))) (map cfun pcs)) as (f1 & Ef1 & Wf1 & _ & Vf1 & If1).
      - intros l. apply permute_perm. intros l'. apply E.
      - destruct pcs; [congruence|discriminate].
      - apply Forall_forall. intros h Ih. apply in_map_iff in Ih as (c & <- & Ic). split; apply (CF c Ic).
      - intros (v & w & Iv & Iw & Ek & Nvw). apply Nvw. apply in_flat_map in Iv as (h & Ih & Iv). apply in_flat_map in Iw as (h' & Ih' & Iw).
        apply (NoDup_vkey_inj vs); auto; apply VI; eauto.
      - rewrite Ef1. cbn [rbind].
        assert (PV : Permutation vs (f_vars f1)).
        { apply NoDup_Permutation. apply NoDup_vkey_NoDup; auto. apply NoDup_vkey_NoDup. apply Wf1. intros v. rewrite Vf1. symmetry. apply VI. }
        destruct (clone_permuted_ok f1 g Wf1 WG PV) as (f & Ef & Wf & Gf & Xf & If). exists f. splits; auto.
        destruct parts_value as (c & Pc & Ec). exists c. split; auto. intros a Pa.
        assert (Pa1 : proper a (f_vars f1)) by (intros v Iv; apply Pa; apply (Permutation_in _ (Permutation_sym PV)); auto).
        unfold fval, transform. rewrite Xf. fold vs in If. rewrite (If a Pa1), (If1 a Pa1), prodL_map.
        rewrite (prodL_ext _ (cval a)) by (intros d Id; apply (CF d Id); auto). rewrite (prodL_perm OK _ _ _ PP'). rewrite Ec by auto. rewrite total_sum. auto.
    Qed.
  End Ready.

  Theorem joint_ready A e s r g : env_ok e -> ready H A SUM s r -> symmetric H A -> wf_group g -> g_soup g <> [] ->
    (forall v, In v (g_soup g) -> In v (sp_vars A)) -> (forall v, In v (g_soup g) -> hidden A v -> tree_around H A v) ->
    joined_inside H A (g_soup g) -> one_observed A (g_soup g) ->
    exists f, joint_of e s g = Ok f /\ f_group f = g /\ wf_factor f /\ f_exp f = None /\
      exists c, (n0 < c)%num /\ forall a, proper a (g_soup g) -> fval f (map a (g_soup g)) = (c * mass (W A) A (takes_all (g_soup g) (map a (g_soup g))))%num.
  Proof.
    intros E (_ & s0 & x & ls & PP & ST & DN) SY WG NE KN TR JI OO.
    destruct (nodes_found A s s0 x ls PP ST g KN) as (ll & Ell & LL).
    apply (joint_ready_at A e s s0 x ls (pr_structs r) E PP ST DN SY g WG NE KN TR JI OO ll LL Ell).
  Qed.

  Lemma symmetric_positive s A : core s (g_all s) -> abs s A -> symmetric H A -> positive (weight H A) A -> positive (W A) A.
  Proof. intros C AB SY P. eapply positive_ext; [|exact P]. intros x Ix. symmetry. eapply (symmetric_weight H); eauto. Qed.

  Theorem joint_exact A e n s g : usable H A s -> env_ok e -> 1 <= n -> symmetric H A -> positive (weight H A) A -> wf_group g -> g_soup g <> [] ->
    (forall v, In v (g_soup g) -> In v (sp_vars A)) -> (forall v, In v (g_soup g) -> hidden A v -> tree_around H A v) ->
    joined_inside H A (g_soup g) -> one_observed A (g_soup g) ->
    exists f s', get_joint H e g n s = Ret f s' /\ usable H A s' /\ f_group f = g /\ wf_factor f /\
      exists c, (n0 < c)%num /\ forall l, valid_comb (map vsize (g_soup g)) l -> fval f l = (c * mass (weight H A) A (takes_all (g_soup g) l))%num.
  Proof.
    intros U E Ln SY P WG NE KN TR JI OO. pose proof U as [[C _] AB _ _].
    assert (PW : positive (W A) A) by (eapply symmetric_positive; eauto).
    destruct (check_usable OK H HG A e SUM n s U E Ln (symmetric_balanced H A SY) PW) as (s' & r & Q & U' & El & RD & K).
    destruct (joint_ready A e s' r g E RD SY WG NE KN TR JI OO) as (f & Ef & Gf & Wf & _ & c & Pc & Vf).
    exists f, s'. rewrite get_joint_eq, Q. cbn [obind]. rewrite Ef. splits; auto. exists c. split; auto. intros l Vl.
    assert (ND : NoDup (g_soup g)) by (apply NoDup_vkey_NoDup; apply WG).
    destruct (lookup_comb_proper (g_soup g) l ND Vl) as [EC HP].
    rewrite <- EC at 1. rewrite Vf by auto. rewrite EC. f_equal. apply mass_ext. intros x Ix. eapply (symmetric_weight H); eauto.
  Qed.
End JointExact.
