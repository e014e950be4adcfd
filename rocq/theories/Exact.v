(** After a propagation over a tree the messages and the merged factor of a
    node give the sums (or maxima) of the weights of the assignments *)
From Coq Require Import String List Arith Bool Lia Permutation Relations Field.
From Verif Require Import Res Num Categoric Func FuncProofs GroupProofs FactorProofs FactorApi Special SpecialProofs
  Graph GraphLemmas Clusters Belief Query GraphInv EvidInv BeliefInv BigOp Tree Cycle BPStep BPRun GraphSpec Hist BeliefSpec Sums.
Import ListNotations.
Open Scope nat_scope.

Lemma concat_split {A} (ls : list (list A)) i S : nth_error ls i = Some S ->
  exists O, Permutation (concat ls) (S ++ O) /\ (forall a, In a O <-> exists j T, nth_error ls j = Some T /\ j <> i /\ In a T).
Proof.
  revert i; induction ls as [|L ls IH]; intros i E. destruct i; discriminate. destruct i as [|i]; simpl in E.
  - injection E as ->. exists (concat ls). simpl. split; auto. intros a. rewrite in_concat. split.
    + intros (T & IT & Ia). apply In_nth_error in IT as [j Hj]. exists (1 + j), T. splits; auto.
    + intros (j & T & Hj & Nj & Ia). destruct j as [|j]; [congruence|]. exists T. split; auto. eapply nth_error_In; eauto.
  - destruct (IH i E) as (O & P & HO). exists (L ++ O). simpl. split.
    + rewrite P. rewrite !app_assoc. apply Permutation_app_tail, Permutation_app_comm.
    + intros a. rewrite in_app_iff, HO. split.
      * intros [I|(j & T & Hj & Nj & Ia)]. exists 0, L. splits; auto. exists (1 + j), T. splits; auto.
      * intros (j & T & Hj & Nj & Ia). destruct j as [|j]; simpl in Hj. injection Hj as ->. auto. right. exists j, T. splits; auto.
Qed.

Section Split.
  Context {N : num} (OK : num_ok N).
  Add Field NFieldSplit : (ok_field N OK).
  Variable adj : nat -> nat -> bool.
  Variable psi : nat -> nat -> nat -> nat -> N.

  (** nodes with no edge between them *)
  Lemma edges_split S O x : (forall a b, In a S -> In b O -> adj a b = false) ->
    edges_wt adj psi (S ++ O) x = (edges_wt adj psi S x * edges_wt adj psi O x)%num.
  Proof.
    induction S as [|a S IH]; simpl; intros D. ring.
    rewrite IH by (intros; apply D; auto). rewrite filter_app, (prodL_app OK). rewrite (filter_none (adj a) O). simpl. ring.
    intros b I. apply D; auto.
  Qed.
  Lemma wt_app u S O x : (forall a b, In a S -> In b O -> adj a b = false) ->
    wt adj psi u (S ++ O) x = (wt adj psi u S x * wt adj psi u O x)%num.
  Proof. intros D. unfold wt. rewrite (edges_split S O x D), (prodL_app OK). ring. Qed.
  Lemma wt_pos u S x : (forall a, In a S -> (n0 < u a (x a))%num) -> (forall a b, In a S -> In b S -> adj a b = true -> (n0 < psi a b (x a) (x b))%num) ->
    (n0 < wt adj psi u S x)%num.
  Proof.
    intros P1 P2. unfold wt. apply ok_mul; auto. { apply (prodL_pos OK). auto. }
    assert (G : forall S', incl S' S -> (n0 < edges_wt adj psi S' x)%num).
    { induction S' as [|a S' IH]; simpl; intros I. apply nlt_0_1; auto. apply ok_mul; auto.
      - apply (prodL_pos OK). intros b Ib. apply filter_In in Ib as [Ib Q]. apply P2; auto; apply I; simpl; auto.
      - apply IH. intros z Iz. apply I. simpl; auto. }
    apply G, incl_refl.
  Qed.
End Split.

Section Exact.
  Context {N : num} (OK : num_ok N).
  Variable H : nat -> func N.
  Hypothesis HG : goods H.
  Notation gst := (gst (N:=N)).
  Implicit Types s : gst.
  Notation core := (core H).
  Add Field NFieldExact : (ok_field N OK).

  Variable s0 : gst.
  Variable A : spec.
  Hypothesis C0 : core s0 (g_all s0).
  Hypothesis CL0 : clean s0.
  Hypothesis EV0 : evened s0.
  Hypothesis AB : abs s0 A.
  Notation sz := (szn s0).
  Notation adj := (adjb s0).
  Notation psi := (psi H s0).
  Notation u := (uw H s0).
  Notation W := (weight_swapped H A).

  Lemma range_ext y : (forall a, a < gsize s0 -> y a < sz a) -> unary_ge sz u (hid s0) /\ psi_ge sz adj psi (hid s0).
  Proof.
    intros _. split.
    - intros a i I L. apply hid_In in I. eapply uw_nonneg; eauto. tauto.
    - intros a b i j _ _. eapply psi_nonneg; eauto.
  Qed.
  Lemma wt_hid_nonneg y : (forall a, In a (hid s0) -> y a < sz a) -> (n0 <= wt adj psi u (hid s0) y)%num.
  Proof.
    intros R. apply (wt_nonneg OK) with (sz := sz); auto.
    - intros a i I L. apply hid_In in I. eapply uw_nonneg; eauto. tauto.
    - intros a b i j _ _. eapply psi_nonneg; eauto.
  Qed.

  (** {1 Positive assignments} *)
  Lemma positive_node : positive W A -> exists x, (forall a, a < gsize s0 -> x a < sz a) /\ obs_ok s0 x /\ (n0 < W (asg_of s0 x))%num.
  Proof.
    intros (z & [Iz Az] & P). rewrite <- (ab_vars _ _ AB) in Iz. destruct (asg_range s0 z Iz) as (y & -> & R). exists y. splits; auto.
    apply (agrees_obs H s0 A C0 AB). auto.
  Qed.

  Lemma swapped_nonneg f y : (forall a, a < gsize s0 -> y a < sz a) -> In f (g_all s0) -> (n0 <= swapped H A f (asg_of s0 y))%num.
  Proof.
    intros R If. destruct (co_fac _ _ _ C0 f If) as [(v & a & E & Hv & _)|(va & vb & a & b & c & E & Ha & Hb & Hc & Ef)]; unfold swapped; unfold fvars in E; rewrite E.
    - simpl. rewrite (val_asg H s0 C0 y a v Hv). eapply (uval_nonneg OK H HG f v); auto. rewrite <- (szn_at _ _ _ Hv). apply R. eapply var_at_lt; eauto.
    - rewrite (val_asg H s0 C0 y a va Ha), (val_asg H s0 C0 y b vb Hb).
      pose proof (var_at_lt _ _ _ Ha) as La. pose proof (var_at_lt _ _ _ Hb) as Lb. apply R in La, Lb. rewrite (szn_at _ _ _ Ha) in La. rewrite (szn_at _ _ _ Hb) in Lb.
      assert (NN : forall i j, i < vsize va -> j < vsize vb -> (n0 <= fval (H f) [i; j])%num).
      { intros i j Li Lj. pose proof (bval_nonneg OK H HG f va vb i j E Li Lj) as Q. unfold bval in Q. rewrite E, var_peqb_refl in Q. auto. }
      destruct (is_obs A va || is_obs A vb) eqn:O. apply NN; auto.
      apply orb_false_iff in O as [O1 O2]. rewrite (obs_at s0 A AB a va Ha) in O1. rewrite (obs_at s0 A AB b vb Hb) in O2.
      apply is_some_false in O1, O2. destruct Hc as [Hc|Hc].
      + assert (SE : vsize va = vsize vb) by (eapply EV0; eauto). apply NN; lia.
      + rewrite (co_hh _ _ _ C0 a b) in Hc by auto. discriminate.
  Qed.
  Lemma w_nonneg : wnonneg s0 W.
  Proof. intros y R. unfold weight_swapped. apply (prodL_nonneg OK). intros f If. rewrite <- (ab_all _ _ AB) in If. apply swapped_nonneg; auto. Qed.

  Lemma prodL_factor {T} (f : T -> N) l a : (forall b, In b l -> (n0 <= f b)%num) -> (n0 < prodL f l)%num -> In a l -> (n0 < f a)%num.
  Proof.
    induction l as [|b l IH]; simpl; intros NN P I. contradiction.
    assert (Pb : (n0 < f b)%num /\ (n0 < prodL f l)%num).
    { assert (L1 : (n0 <= f b)%num) by auto. assert (L2 : (n0 <= prodL f l)%num) by (apply (prodL_nonneg OK); auto).
      apply (nmul_pos_inv OK); auto. }
    destruct I as [<-|I]; [tauto|]. apply IH; auto. tauto.
  Qed.

  Lemma positive_parts x : (forall a, a < gsize s0 -> x a < sz a) -> obs_ok s0 x -> (n0 < W (asg_of s0 x))%num ->
    (forall a, a < gsize s0 -> g_ev s0 a = None -> x a < sz a /\ (n0 < u a (x a))%num) /\
    (forall a b, adj a b = true -> (n0 < psi a b (x a) (x b))%num) /\ (n0 < const_wt H s0 A)%num.
  Proof.
    intros R OB P.
    assert (PF : forall f, In f (g_all s0) -> (n0 < swapped H A f (asg_of s0 x))%num).
    { intros f If. unfold weight_swapped in P. rewrite <- (ab_all _ _ AB) in P. apply (prodL_factor (fun f => swapped H A f (asg_of s0 x)) (g_all s0)); auto. intros g Ig. apply swapped_nonneg; auto. }
    splits.
    - intros a La Ea. split; auto. unfold uw. assert (Ia : In a (hid s0)) by (apply hid_In; auto). apply ok_mul; auto.
      + apply (prodL_pos OK). intros f If. destruct (co_un _ _ _ C0 a f If) as (Ig & v & Hv & E). pose proof (PF f Ig) as Q.
        unfold swapped, fvars in *. rewrite E in Q. simpl in Q. rewrite (val_asg H s0 C0 x a v Hv) in Q. auto.
      + apply (prodL_pos OK). intros b Ib. apply keys_In in Ib as (_ & c & E). change (dis s0 a b = Some c) in E.
        rewrite <- (swapped_mixed H s0 A C0 AB x a b c) by auto. apply PF. apply (co_dis _ _ _ C0) in E. apply E.
    - intros a b Q. apply adjb_eact in Q as [c Q]. rewrite <- (swapped_edge H s0 A C0 AB CL0 x a b c Q). apply PF. apply (co_act _ _ _ C0) in Q. apply Q.
    - unfold const_wt. apply (prodL_pos OK). intros f If. assert (Ig : In f (g_all s0)) by (apply filter_In in If; tauto).
      pose proof (PF f Ig) as Q. replace (swapped H A f _) with (swapped H A f (asg_of s0 x)); auto. unfold swapped.
      assert (V : forall v, In v (fvars H f) -> val (asg_of s0 x) v = val (asg_of s0 (fun b => match g_ev s0 b with Some k => k | None => 0 end)) v).
      { intros v Iv. destruct (other_obs H s0 C0 CL0 f v If Iv) as (b & Hb & Ob). rewrite !(val_asg H s0 C0 _ b v Hb). destruct (g_ev s0 b) as [k|] eqn:E; [|congruence]. apply OB; auto. }
      unfold fvars in V. destruct (f_vars (H f)) as [|v [|w [|z l]]]; auto.
      + f_equal. apply map_ext_in. auto.
      + rewrite (V v), (V w) by (simpl; auto). auto.
      + f_equal. apply map_ext_in. auto.
  Qed.

  (** {1 The sums for the values of the nodes of a cluster} *)
  Variable x : nat -> nat.
  Hypothesis XR : forall a, a < gsize s0 -> x a < sz a.
  Hypothesis XO : obs_ok s0 x.
  Hypothesis XP : (n0 < W (asg_of s0 x))%num.
  Let X1 := proj1 (positive_parts x XR XO XP).
  Let X2 := proj1 (proj2 (positive_parts x XR XO XP)).
  Let X3 := proj2 (proj2 (positive_parts x XR XO XP)).

  (** the clusters, in any order *)
  Variable nds : list (list nat).
  Hypothesis LS : components (eact s0) (hid s0) nds.

  Lemma comp_facts S : In S nds -> NoDup S /\ S <> [] /\ (forall a, In a S -> a < gsize s0 /\ g_ev s0 a = None) /\
    (forall a b, In a S -> adj a b = true -> In b S).
  Proof.
    intros I. assert (IH : forall a, In a S -> In a (hid s0)).
    { intros a Ia. apply (Permutation_in _ (cp_perm _ _ _ LS)). apply in_concat. eauto. }
    split; [|split; [|split]].
    - assert (ND : NoDup (concat nds)) by (eapply Permutation_NoDup; [symmetry; apply LS|apply hid_NoDup]).
      apply in_split in I as (l1 & l2 & El). rewrite El, concat_app in ND. simpl in ND. apply NoDup_app_parts in ND as [_ ND]. apply NoDup_app_parts in ND. tauto.
    - apply (cp_ne _ _ _ LS); auto.
    - intros a Ia. apply hid_In. auto.
    - intros a b Ia Q. apply adjb_eact in Q. apply (cp_closed _ _ _ LS S a b); auto. apply hid_In. destruct (CL0 a b Q) as [_ Eb]. split; auto.
      destruct Q as [c Q]. apply (co_act _ _ _ C0) in Q. apply link_lt in Q. tauto.
  Qed.

  Lemma cluster_facts S i : nth_error nds i = Some S -> NoDup S /\ S <> [] /\ (forall a, In a S -> a < gsize s0 /\ g_ev s0 a = None) /\
    (forall a b, In a S -> adj a b = true -> In b S) /\ conn_in adj S /\
    exists O, Permutation (hid s0) (S ++ O) /\ forall a b, In a S -> In b O -> adj a b = false.
  Proof.
    intros Hi. pose proof (nth_error_In _ _ Hi) as I. destruct (comp_facts S I) as (F1 & F2 & F3 & F4).
    split; [auto|]. split; [auto|]. split; [auto|]. split; [auto|]. split.
    - intros a b Ia Ib. pose proof (cp_conn _ _ _ LS S a b I Ia Ib) as L.
      assert (G : forall a b, linked (eact s0) (fun z => In z (hid s0)) a b -> In a S -> linked (adjP adj) (fun z => In z S) a b /\ In b S).
      { clear - F4. intros a b L. unfold linked in L. apply clos_rt_rt1n in L. induction L as [a|a b c (E & _ & _) L IH]; intros Ia.
        - split; auto. apply rt_refl.
        - apply adjb_eact in E. assert (Ib : In b S) by eauto. destruct (IH Ib) as [Q1 Q2]. split; auto. eapply rt_trans; [apply rt_step|exact Q1]. splits; auto. }
      apply G; auto.
    - destruct (concat_split nds i S Hi) as (O & P & HO). exists O. split.
      + rewrite <- P. symmetry. apply (cp_perm _ _ _ LS).
      + intros a b Ia Ib. destruct (adj a b) eqn:Q; auto. exfalso. apply HO in Ib as (j & T & Hj & Nj & Ib). apply Nj.
        apply (nodup_concat_index nds j i T S b); eauto. eapply Permutation_NoDup; [symmetry; apply LS|apply hid_NoDup].
  Qed.

  (** the weight of the values of some nodes [Q] of a cluster [S = Q ++ R] *)
  Theorem part_total k i S Q R s tree : nth_error nds i = Some S -> Permutation S (Q ++ R) -> Q <> [] -> conn_in adj Q ->
    cdone H s0 k s S tree -> tree = true -> floored H s0 k -> mgood s0 x s -> st H s0 x s ->
    exists O C, Permutation (hid s0) (Q ++ R ++ O) /\ (n0 < C)%num /\ forall y, obs_ok s0 y -> (forall q, In q Q -> y q < sz q) ->
      osum k sz (R ++ O) (fun y => W (asg_of s0 y)) y =
      (C * (wt adj psi u Q y * prodL (fun q => prodL (fun z => mval s z q (y q)) (nb adj R q)) Q))%num.
  Proof.
    intros Hi PS NQ CQ CD T FL MG ST. destruct (cluster_facts S i Hi) as (F1 & F2 & F3 & F4 & F5 & O & PO & NO).
    destruct (cd_tree _ _ _ _ _ _ CD T) as (rank & RK & FX). specialize (FX FL).
    assert (INS : forall a, In a (Q ++ R) <-> In a S) by (intros a; split; apply Permutation_in; auto; symmetry; auto).
    assert (PH : Permutation (hid s0) (Q ++ R ++ O)) by (rewrite PO, app_assoc; apply Permutation_app_tail; auto).
    assert (NDH : NoDup (Q ++ R ++ O)) by (eapply Permutation_NoDup; [exact PH|apply hid_NoDup]).
    assert (NDS : NoDup (Q ++ R)) by (eapply Permutation_NoDup; eauto).
    destruct (elimination OK k sz adj (fun a b => adjb_sym H s0 _ a b C0) (fun a => adjb_irr H s0 _ a C0) psi
      (fun a b i j => psi_sym H HG s0 _ a b i j C0) (mval s) rank R Q u) as (C & PC & EC); auto.
    { intros a b Ia Ib. apply INS in Ia, Ib. eapply linked_mono; [| |apply (F5 a b Ia Ib)]; auto. intros z. apply INS. }
    { eapply ranked_incl; [|exact RK]. intros a Ia. apply INS; auto. }
    { eapply fixp_perm; eauto. }
    { intros a j Ia Lj. apply INS, F3 in Ia. eapply uw_nonneg; eauto. tauto. }
    { intros a b m j _ _. eapply psi_nonneg; eauto. }
    { intros a b j Ia Ib Ad Lj. unfold mval. destruct (act s b a) as [c|] eqn:E; [|apply (nle_refl OK)]. destruct (c_msg c) as [m|] eqn:Em; [|apply (nle_refl OK)].
      apply INS, F3 in Ib as [Lb _]. destruct (var_at_ex s0 b Lb) as [vb Hb]. destruct (MG a b c m vb E Em Hb) as (_ & NN & _). apply NN.
      rewrite <- (szn_at _ _ _ Hb). auto. }
    set (K := osum k sz O (wt adj psi u O) (x_ev s0)).
    assert (NDO : NoDup O) by (apply NoDup_app_parts in NDH as [_ NDH]; apply NoDup_app_parts in NDH; tauto).
    assert (NDR : NoDup R) by (apply NoDup_app_parts in NDS; tauto).
    assert (OH : forall a, In a O -> a < gsize s0 /\ g_ev s0 a = None).
    { intros a Ia. apply hid_In. eapply Permutation_in; [symmetry; exact PO|]. apply in_app_iff; auto. }
    assert (PK : (n0 < K)%num).
    { unfold K. apply (osum_pos OK k sz O NDO _ _ (fun b => if mem b O then x b else x_ev s0 b)).
      - apply wt_ext.
      - intros y [_ V]. apply (wt_nonneg OK) with (sz := sz); auto.
        intros a j Ia Lj. apply OH in Ia. eapply uw_nonneg; eauto. tauto. intros a b m j _ _. eapply psi_nonneg; eauto.
      - split. intros a Na. apply mem_false in Na. rewrite Na. auto. intros a Ia. rewrite (proj2 (mem_In a O) Ia). apply XR. apply OH; auto.
      - rewrite (wt_agree adj psi u O _ x). apply (wt_pos OK). intros a Ia. apply OH in Ia. apply X1; tauto. intros; apply X2; auto.
        intros a Ia. rewrite (proj2 (mem_In a O) Ia). auto. }
    exists O, (const_wt H s0 A * (K * C))%num. split; [auto|]. split. { apply ok_mul; auto. apply ok_mul; auto. }
    intros y OB RG. rewrite osum_app.
    rewrite (osum_factor OK k sz R NDR _ (wt adj psi u (Q ++ R)) (const_wt H s0 A * K)%num y).
    - rewrite (EC y RG). ring.
    - apply nlt_le; auto. apply ok_mul; auto.
    - intros z [Z1 Z2].
      assert (NO' : forall a b, In a (Q ++ R) -> In b O -> adj a b = false) by (intros a b Ia; apply NO; apply INS; auto).
      rewrite (osum_factor OK k sz O NDO _ (wt adj psi u O) (const_wt H s0 A * wt adj psi u (Q ++ R) z)%num z).
      + rewrite (osum_closed k sz O _ z (x_ev s0)). fold K. ring. intros y1 y2 E. apply wt_agree; auto.
      + apply nmul_nonneg; auto. apply nlt_le; auto. apply (wt_nonneg OK) with (sz := sz); auto.
        * intros a j Ia Lj. apply INS, F3 in Ia. eapply uw_nonneg; eauto. tauto.
        * intros a b m j _ _. eapply psi_nonneg; eauto.
        * intros a Ia. apply in_app_iff in Ia as [Ia|Ia]; auto. rewrite Z1. auto. intros J.
          apply in_split in Ia as (q1 & q2 & ->). rewrite <- app_assoc in NDS. apply NoDup_app_parts in NDS as [_ NDS]. inversion NDS; subst.
          apply H2. apply in_app_iff; auto.
      + intros w [V1 V2]. rewrite (weight_nodes OK H s0 A C0 AB CL0 w).
        * rewrite (wt_perm OK adj (fun a b => adjb_sym H s0 _ a b C0) psi (fun a b i j => psi_sym H HG s0 _ a b i j C0) u (hid s0) ((Q ++ R) ++ O) w)
            by (rewrite <- app_assoc; auto).
          rewrite (wt_app OK adj psi u (Q ++ R) O w NO'). rewrite (wt_agree adj psi u (Q ++ R) w z). ring.
          intros a Ia. apply V1. intros J. rewrite app_assoc in NDH. apply in_split in J as (o1 & o2 & EO).
          rewrite EO in NDH. rewrite (app_assoc (Q ++ R) o1) in NDH. apply NoDup_remove_2 in NDH. apply NDH. rewrite !in_app_iff in *. tauto.
        * intros b m Eb. rewrite V1, Z1; auto.
          -- intros J. assert (Ib : In b S) by (apply INS, in_app_iff; auto). apply F3 in Ib. destruct Ib; congruence.
          -- intros J. apply OH in J. destruct J; congruence.
  Qed.

  (** {1 One node} *)
  Lemma conn_single a : conn_in adj [a].
  Proof. intros p q [<-|[]] [<-|[]]. apply rt_refl. Qed.

  Theorem node_total k a v i S s tree : nth_error nds i = Some S -> In a S -> var_at s0 a v -> cdone H s0 k s S tree -> tree = true ->
    floored H s0 k -> st H s0 x s ->
    exists C, (n0 < C)%num /\ forall j, j < sz a -> total A k W (takes v j) = (C * (u a j * prodL (fun z => mval s z a j) (nbs s0 a)))%num.
  Proof.
    intros Hi Ia Ha CD T FL ST. pose proof ST as [K MG].
    destruct (cluster_facts S i Hi) as (F1 & F2 & F3 & F4 & F5 & _).
    destruct (in_split a S Ia) as (l1 & l2 & ES). set (R := l1 ++ l2).
    assert (PS : Permutation S ([a] ++ R)) by (rewrite ES; unfold R; symmetry; apply (Permutation_middle l1 l2 a)).
    destruct (part_total k i S [a] R s tree) as (O & C & PH & PC & EC); auto. discriminate. apply conn_single.
    exists C. split; auto. intros j Lj. destruct (F3 a Ia) as [La Ea].
    rewrite (total_node OK H s0 A C0 AB k W a v (R ++ O) j w_nonneg Ha PH Lj). rewrite EC.
    - simpl. rewrite BigOp.fupd_eq. unfold wt. simpl. rewrite BigOp.fupd_eq.
      assert (PN : Permutation (nb adj R a) (nbs s0 a)).
      { apply NoDup_Permutation. apply NoDup_filter. assert (NDr : NoDup ([a] ++ R)) by (eapply Permutation_NoDup; eauto). inversion NDr; auto.
        apply keys_NoDup. intros z. rewrite (nb_In adj R a z), (nbs_In H _ s0 C0 a z). split; [tauto|]. intros Q. split; auto.
        assert (Iz : In z S) by (eapply F4; eauto). apply (Permutation_in _ PS) in Iz as [<-|Iz]; auto. exfalso. rewrite (adjb_irr H s0 _ a C0) in Q. discriminate. }
      rewrite (prodL_perm OK _ _ _ PN). ring.
    - intros b m Eb. rewrite BigOp.fupd_ne. apply x_ev_ok; auto. intros ->. congruence.
    - intros q [<-|[]]. rewrite BigOp.fupd_eq. auto.
  Qed.

  (** the incoming messages of a node, merged *)
  Theorem incoming_ok e k a v i S s tree : env_ok e -> nth_error nds i = Some S -> In a S -> var_at s0 a v -> cdone H s0 k s S tree -> st H s0 x s ->
    exists m c, incoming e s a = Ok m /\ unary v m /\ (n0 < c)%num /\
      (forall j, j < vsize v -> uval m j = (c * (u a j * prodL (fun z => mval s z a j) (nbs s0 a)))%num /\ (n0 <= uval m j)%num) /\
      exists j, j < vsize v /\ uval m j = n1.
  Proof.
    intros E Hi Ia Ha CD ST. pose proof ST as [K MG].
    destruct (cluster_facts S i Hi) as (F1 & F2 & F3 & F4 & F5 & _). destruct (F3 a Ia) as [La Ea].
    destruct (cd_all _ _ _ _ _ _ CD a Ia) as (mu & Emu).
    assert (PX : x a < vsize v /\ (n0 < u a (x a))%num) by (rewrite <- (szn_at _ _ _ Ha); apply X1; auto).
    assert (SM : scaled v mu (u a)).
    { apply (merged_for_scaled OK H HG s0 (g_all s0) a v mu); auto.
      - exists (x a). split. tauto. apply (nlt_neq' OK); auto. tauto.
      - destruct (kp_merged _ _ _ K a mu Emu) as [Q|Q]; auto. apply (co_merged _ _ _ C0 a mu Ea Q). }
    destruct SM as (Umu & NNmu & (c1 & Pc1 & Vmu) & _).
    unfold incoming. rewrite Emu.
    set (ks := e_ord e a (keys (gsize s) (nd_act (g_node s a)))).
    assert (PK : Permutation ks (nbs s0 a)).
    { unfold ks, nbs. rewrite (keeps_keys H _ _ a K). apply E. }
    set (ms := map (fun b => match act s a b with Some c => match c_msg c with Some m => m | None => mu end | None => mu end) ks).
    assert (EM : map (fun b => match act s a b with Some c => c_msg c | None => None end) ks = map Some ms).
    { unfold ms. rewrite map_map. apply map_ext_in. intros b Ib. apply (Permutation_in _ PK), (nbs_In H _ s0 C0) in Ib.
      assert (Ib' : In b S) by eauto. rewrite (adjb_sym H s0 _ a b C0) in Ib. destruct (cd_has _ _ _ _ _ _ CD b a Ib' Ib) as (c & m & Q1 & Q2). rewrite Q1, Q2. auto. }
    rewrite EM.
    assert (GM : forall m, In m ms -> unary v m /\ unary_nonneg v m /\ (n0 < uval m (x a))%num).
    { intros m Im. unfold ms in Im. apply in_map_iff in Im as (b & <- & Ib). apply (Permutation_in _ PK), (nbs_In H _ s0 C0) in Ib.
      assert (Ib' : In b S) by eauto. rewrite (adjb_sym H s0 _ a b C0) in Ib. destruct (cd_has _ _ _ _ _ _ CD b a Ib' Ib) as (c & m & Q1 & Q2). rewrite Q1, Q2.
      eapply MG; eauto. }
    assert (EV : forall j, prodL (fun f => uval f j) ms = prodL (fun z => mval s z a j) (nbs s0 a)).
    { intros j. rewrite <- (prodL_perm OK _ _ _ PK). unfold ms. rewrite prodL_map. apply prodL_ext. intros b Ib.
      apply (Permutation_in _ PK), (nbs_In H _ s0 C0) in Ib. assert (Ib' : In b S) by eauto. rewrite (adjb_sym H s0 _ a b C0) in Ib.
      destruct (cd_has _ _ _ _ _ _ CD b a Ib' Ib) as (c & m & Q1 & Q2). unfold mval. rewrite Q1, Q2. auto. }
    destruct (merged_unaries_ok OK v (mu :: ms)) as (c2 & m & Pc2 & Em & Um & _ & _ & Vm & Om).
    - constructor; auto. apply Forall_forall. intros m Im. apply GM; auto.
    - discriminate.
    - intros f [<-|If]; auto. apply GM; auto.
    - exists (x a). split. tauto. simpl. apply (nlt_neq' OK); auto. apply ok_mul; auto.
      + rewrite Vmu by tauto. apply ok_mul; auto. tauto.
      + apply (prodL_pos OK). intros f If. apply GM; auto.
    - exists m, (c2 * c1)%num. split; [exact Em|]. split; [auto|]. split; [apply ok_mul; auto|]. split; [|auto].
      intros j Lj. destruct (Vm j Lj) as (V1 & _ & V3). split; auto. rewrite V1. simpl. rewrite EV, Vmu by auto. ring.
  Qed.

  (** the marginal computed for a node *)
  Theorem marginal_node e k a v i S s tree : env_ok e -> nth_error nds i = Some S -> In a S -> var_at s0 a v -> cdone H s0 k s S tree -> st H s0 x s ->
    tree = true -> floored H s0 k ->
    (let* m := incoming e s a in get_probabilities m) =
      Ok (map (fun j => total A k W (takes v j) / sumL (fun j => total A k W (takes v j)) (seq 0 (vsize v)))%num (seq 0 (vsize v))) /\
    (n0 < sumL (fun j => total A k W (takes v j)) (seq 0 (vsize v)))%num.
  Proof.
    intros E Hi Ia Ha CD ST T FL.
    destruct (node_total k a v i S s tree Hi Ia Ha CD T FL ST) as (C & PC & EC).
    destruct (incoming_ok e k a v i S s tree E Hi Ia Ha CD ST) as (m & c & Em & Um & Pc & Vm & (j1 & Lj1 & Ej1)).
    rewrite Em. cbn [rbind]. rewrite (get_probabilities_ok OK m) by apply Um. rewrite (unary_fsizes v m Um), all_combs_1.
    cbv zeta. rewrite sumL_map, map_map. rewrite (szn_at _ _ _ Ha) in EC.
    set (g := fun j => (u a j * prodL (fun z => mval s z a j) (nbs s0 a))%num) in *.
    set (G := sumL g (seq 0 (vsize v))).
    assert (E1 : sumL (fun j => fval m [j]) (seq 0 (vsize v)) = (c * G)%num).
    { unfold G. rewrite <- (sumL_mul_l OK). apply sumL_ext. intros j Ij. apply in_seq in Ij. change (fval m [j]) with (uval m j). apply Vm. lia. }
    assert (E2 : sumL (fun j => total A k W (takes v j)) (seq 0 (vsize v)) = (C * G)%num).
    { unfold G. rewrite <- (sumL_mul_l OK). apply sumL_ext. intros j Ij. apply in_seq in Ij. apply EC. lia. }
    assert (PS : (n0 < c * G)%num).
    { rewrite <- E1. apply (bigL_pos OK SUM (fun j => fval m [j]) (seq 0 (vsize v)) j1).
      - intros b Ib. apply in_seq in Ib. apply Vm. lia.
      - apply in_seq. lia.
      - change (fval m [j1]) with (uval m j1). rewrite Ej1. apply nlt_0_1; auto. }
    assert (PG : (n0 < G)%num).
    { apply (ok_mul N OK (n1 / c)%num) in PS. replace (n1 / c * (c * G))%num with G in PS by (field; apply (nlt_neq' OK); auto). auto.
      apply (ninv_pos OK); auto. }
    rewrite E1, E2. split; [|apply ok_mul; auto]. f_equal. apply map_ext_in. intros j Ij. apply in_seq in Ij.
    assert (Q : neqb (c * G)%num n0 = false) by (apply (neqb_false OK); apply (nlt_neq' OK); auto). rewrite Q.
    change (fval m [j]) with (uval m j). destruct (Vm j) as [V1 _]; [lia|]. rewrite V1, EC by lia. fold (g j). field.
    repeat split; apply (nlt_neq' OK); auto.
  Qed.
End Exact.
