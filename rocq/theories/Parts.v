(** After a propagation over trees, the sums (or maxima) for the values of some
    nodes, possibly of different clusters *)
From Coq Require Import String List Arith Bool Lia Permutation Relations Field.
From Verif Require Import Res Num Categoric Func FuncProofs GroupProofs FactorProofs FactorApi Special SpecialProofs
  Graph GraphLemmas Clusters Belief Query GraphInv EvidInv BeliefInv BigOp Tree Cycle BPStep BPRun GraphSpec Hist BeliefSpec Sums Exact.
Import ListNotations.
Open Scope nat_scope.

Lemma filter_split {A} (p : A -> bool) l : Permutation l (filter p l ++ filter (fun x => negb (p x)) l).
Proof.
  induction l as [|x l IH]; simpl; auto. destruct (p x); simpl.
  - constructor; auto.
  - rewrite <- Permutation_middle. constructor; auto.
Qed.
Lemma NoDup_disjoint {A} (l1 l2 : list A) a : NoDup (l1 ++ l2) -> In a l1 -> In a l2 -> False.
Proof.
  intros ND I1 I2. apply in_split in I1 as (p & q & ->). rewrite <- app_assoc in ND. simpl in ND. apply NoDup_remove_2 in ND.
  apply ND. rewrite !in_app_iff. auto.
Qed.

Section Parts.
  Context {N : num} (OK : num_ok N).
  Variable H : nat -> func N.
  Hypothesis HG : goods H.
  Notation gst := (gst (N:=N)).
  Implicit Types s : gst.
  Notation core := (core H).
  Add Field NFieldParts : (ok_field N OK).

  Variable s0 : gst.
  Variable A : spec.
  Hypothesis C0 : core s0 (g_all s0).
  Hypothesis CL0 : clean s0.
  Hypothesis EV0 : evened s0.
  Hypothesis AB : abs s0 A.
  Notation sz := (szn s0).
  Notation adj := (adjb s0).
  Notation psi := (psi H s0).
  Notation u := (uw H s0).
  Notation W := (weight_swapped H A).
  Variable x : nat -> nat.
  Hypothesis XR : forall a, a < gsize s0 -> x a < sz a.
  Hypothesis XO : obs_ok s0 x.
  Hypothesis XP : (n0 < W (asg_of s0 x))%num.
  Let X1 := proj1 (positive_parts OK H HG s0 A C0 CL0 EV0 AB x XR XO XP).
  Let X2 := proj1 (proj2 (positive_parts OK H HG s0 A C0 CL0 EV0 AB x XR XO XP)).
  Let X3 := proj2 (proj2 (positive_parts OK H HG s0 A C0 CL0 EV0 AB x XR XO XP)).
  Variable nds : list (list nat).
  Hypothesis LS : components (eact s0) (hid s0) nds.

  Variable k : kind.
  Variable s : gst.
  Hypothesis ST : st H s0 x s.
  Hypothesis FL : floored H s0 k.

  (** some hidden nodes: the ones that are linked are linked by a path of these
      nodes, and belong to trees *)
  Variable Q : list nat.
  Hypothesis NDQ : NoDup Q.
  Hypothesis QH : incl Q (hid s0).
  Hypothesis QC : forall a b, In a Q -> In b Q -> linked (eact s0) (fun z => In z (hid s0)) a b -> linked (adjP adj) (fun z => In z Q) a b.
  Hypothesis CD : forall S, In S nds -> exists tree, cdone H s0 k s S tree /\ forall q, In q S -> In q Q -> tree = true.

  Definition outer (q : nat) : list nat := filter (fun z => negb (mem z Q)) (nbs s0 q).
  (** the weights of the values of the nodes [l] and the messages from outside *)
  Definition locals (l : list nat) (y : nat -> nat) : N :=
    (wt adj psi u l y * prodL (fun q => prodL (fun z => mval s z q (y q)) (outer q)) l)%num.

  Lemma locals_agree l y z : (forall a, In a l -> y a = z a) -> locals l y = locals l z.
  Proof.
    intros E. unfold locals. rewrite (wt_agree adj psi u l y z E). f_equal. apply prodL_ext. intros q Iq. rewrite (E q Iq). auto.
  Qed.
  Lemma locals_perm l l' y : Permutation l l' -> locals l y = locals l' y.
  Proof.
    intros P. unfold locals. rewrite (prodL_perm OK _ _ _ P). f_equal.
    apply (wt_perm OK adj (fun a b => adjb_sym H s0 _ a b C0) psi (fun a b i j => psi_sym H HG s0 _ a b i j C0)); auto.
  Qed.
  Lemma locals_app l l' y : (forall a b, In a l -> In b l' -> adj a b = false) -> locals (l ++ l') y = (locals l y * locals l' y)%num.
  Proof. intros D. unfold locals. rewrite (wt_app OK adj psi u l l' y D), (prodL_app OK). ring. Qed.

  Lemma u_ge l : incl l (hid s0) -> unary_ge sz u l.
  Proof. intros I a j Ia Lj. apply I, hid_In in Ia. eapply uw_nonneg; eauto. tauto. Qed.
  Lemma p_ge l : psi_ge sz adj psi l.
  Proof. intros a b i j _ _. eapply psi_nonneg; eauto. Qed.

  Lemma one_part S : In S nds -> let Qs := filter (fun a => mem a Q) S in let R := filter (fun a => negb (mem a Q)) S in
    exists C, (n0 < C)%num /\ forall y, (forall q, In q Qs -> y q < sz q) -> osum k sz R (wt adj psi u S) y = (C * locals Qs y)%num.
  Proof.
    intros IS Qs R. destruct (In_nth_error _ _ IS) as [i Hi].
    destruct (cluster_facts H s0 C0 CL0 nds LS S i Hi) as (F1 & F2 & F3 & F4 & F5 & _).
    assert (PS : Permutation S (Qs ++ R)) by apply filter_split.
    assert (INS : forall a, In a (Qs ++ R) <-> In a S) by (intros a; split; apply Permutation_in; auto; symmetry; auto).
    assert (NDS : NoDup (Qs ++ R)) by (eapply Permutation_NoDup; eauto).
    assert (SH : incl S (hid s0)) by (intros a Ia; apply hid_In; auto).
    assert (EP : forall y, wt adj psi u S y = wt adj psi u (Qs ++ R) y).
    { intros y. apply (wt_perm OK adj (fun a b => adjb_sym H s0 _ a b C0) psi (fun a b i j => psi_sym H HG s0 _ a b i j C0)); auto. }
    assert (NDR : NoDup R) by (apply NoDup_app_parts in NDS; tauto).
    assert (CQ : Qs = [] \/ exists q0, In q0 Qs) by (destruct Qs as [|q0 Qr]; [auto|right; exists q0; simpl; auto]).
    destruct CQ as [EQ|[q0 Iq0]].
    - rewrite EQ in *. simpl in PS, INS.
      set (K := osum k sz R (wt adj psi u S) (x_ev s0)). exists K. split.
      + unfold K. apply (osum_pos OK k sz R NDR _ _ (fun b => if mem b R then x b else x_ev s0 b)).
        * apply wt_ext.
        * intros y [_ V]. apply (wt_nonneg OK) with (sz := sz); auto. apply u_ge; auto. apply p_ge. intros a Ia. apply V, INS; auto.
        * split. intros a Na. apply mem_false in Na. rewrite Na. auto. intros a Ia. rewrite (proj2 (mem_In a R) Ia). apply XR. apply F3, INS; auto.
        * rewrite (wt_agree adj psi u S _ x). apply (wt_pos OK). intros a Ia. apply F3 in Ia. apply X1; tauto. intros; apply X2; auto.
          intros a Ia. apply INS in Ia. rewrite (proj2 (mem_In a R) Ia). auto.
      + intros y _. unfold locals, wt at 2. simpl. unfold K. rewrite (osum_closed k sz R _ y (x_ev s0)). ring.
        intros y1 y2 E. apply wt_agree. intros a Ia. apply E, INS; auto.
    - assert (IQ : forall q, In q Qs <-> In q S /\ In q Q) by (intros q; unfold Qs; rewrite filter_In, mem_In; tauto).
      assert (IR : forall q, In q R <-> In q S /\ ~ In q Q) by (intros q; unfold R; rewrite filter_In, negb_true_iff, mem_false; tauto).
      destruct (CD S IS) as (tree & CDS & TR).
      assert (T : tree = true) by (apply IQ in Iq0; apply (TR q0); tauto).
      destruct (cd_tree _ _ _ _ _ _ CDS T) as (rank & RK & FX). specialize (FX FL). pose proof ST as [_ MG].
      destruct (elimination OK k sz adj (fun a b => adjb_sym H s0 _ a b C0) (fun a => adjb_irr H s0 _ a C0) psi
        (fun a b i j => psi_sym H HG s0 _ a b i j C0) (mval s) rank R Qs u) as (C & PC & EC).
      + auto.
      + intros a b Ia Ib. apply INS in Ia, Ib. eapply linked_mono; [| |apply (F5 a b Ia Ib)]; auto. intros z. apply INS.
      + eapply ranked_incl; [|exact RK]. intros a Ia. apply INS; auto.
      + intros a b Ia Ib. apply IQ in Ia, Ib. destruct Ia as [Sa Qa], Ib as [Sb Qb].
        assert (L : linked (adjP adj) (fun z => In z Q) a b).
        { apply QC; auto. apply (cp_conn _ _ _ LS S); auto. }
        clear - L F4 IQ Sa Qa. unfold linked in L. apply clos_rt_rt1n in L. induction L as [a|a b c (E & _ & Qb) L IH]. apply rt_refl.
        assert (Sb : In b S) by (apply (F4 a); auto). eapply rt_trans; [apply rt_step|apply IH; auto]. splits; auto; apply IQ; auto.
      + intros Z. rewrite Z in Iq0. auto.
      + eapply fixp_perm; eauto.
      + apply u_ge. intros a Ia. apply SH, INS; auto.
      + apply p_ge.
      + intros a b j Ia Ib Ad Lj. unfold mval. destruct (act s b a) as [c|] eqn:E; [|apply (nle_refl OK)]. destruct (c_msg c) as [m|] eqn:Em; [|apply (nle_refl OK)].
        apply INS, F3 in Ib as [Lb _]. destruct (var_at_ex s0 b Lb) as [vb Hb]. destruct (MG a b c m vb E Em Hb) as (_ & NN & _). apply NN.
        rewrite <- (szn_at _ _ _ Hb). auto.
      + exists C. split; auto. intros y RG.
        rewrite (osum_ext OK k sz R NDR _ (wt adj psi u (Qs ++ R)) y) by (intros; apply EP). rewrite (EC y RG). unfold locals. f_equal. f_equal.
        apply prodL_ext. intros q Iq. apply (prodL_perm OK). apply NoDup_Permutation.
        * apply NoDup_filter; auto.
        * apply NoDup_filter, keys_NoDup.
        * intros z. rewrite (nb_In adj R q z). unfold outer. rewrite filter_In, (nbs_In H _ s0 C0 q z), negb_true_iff, mem_false, IR.
          apply IQ in Iq. split; [tauto|]. intros [Ad NQ]. splits; auto. apply (F4 q); tauto.
  Qed.

  Lemma all_parts ls : incl ls nds -> NoDup (concat ls) ->
    let Ql := filter (fun a => mem a Q) (concat ls) in let R := filter (fun a => negb (mem a Q)) (concat ls) in
    exists C, (n0 < C)%num /\ forall y, (forall q, In q Ql -> y q < sz q) -> osum k sz R (wt adj psi u (concat ls)) y = (C * locals Ql y)%num.
  Proof.
    induction ls as [|S ls IH]; intros IL ND Ql R.
    - exists n1. split. apply nlt_0_1; auto. intros y _. simpl. unfold locals, wt. simpl. ring.
    - simpl in ND. assert (IS : In S nds) by (apply IL; simpl; auto).
      destruct IH as (C2 & P2 & E2). intros T IT; apply IL; simpl; auto. apply NoDup_app_parts in ND; tauto.
      destruct (one_part S IS) as (C1 & P1 & E1).
      destruct (comp_facts H s0 C0 CL0 nds LS S IS) as (F1 & F2 & F3 & F4).
      set (O := concat ls) in *.
      set (Q1 := filter (fun a => mem a Q) S) in *. set (R1 := filter (fun a => negb (mem a Q)) S) in *.
      set (Q2 := filter (fun a => mem a Q) O) in *. set (R2 := filter (fun a => negb (mem a Q)) O) in *.
      assert (EQ : Ql = Q1 ++ Q2) by (unfold Ql; simpl; apply filter_app).
      assert (ER : R = R1 ++ R2) by (unfold R; simpl; apply filter_app).
      assert (DJ : forall a b, In a S -> In b O -> adj a b = false).
      { intros a b Ia Ib. destruct (adj a b) eqn:Ad; auto. exfalso. apply (NoDup_disjoint S O b); auto. apply (F4 a); auto. }
      assert (OH : incl O (hid s0)).
      { intros a Ia. apply (Permutation_in _ (cp_perm _ _ _ LS)). unfold O in Ia. apply in_concat in Ia as (T & IT & Ia). apply in_concat. exists T. split; auto. apply IL; simpl; auto. }
      exists (C1 * C2)%num. split. apply ok_mul; auto. intros y RG. rewrite EQ in *. rewrite ER, osum_app.
      assert (ND1 : NoDup R1) by (apply NoDup_filter; auto). assert (ND2 : NoDup R2) by (apply NoDup_filter; apply NoDup_app_parts in ND; tauto).
      rewrite locals_app. 2:{ intros a b Ia Ib. apply filter_In in Ia, Ib. apply DJ; tauto. }
      assert (L2 : (n0 <= C2 * locals Q2 y)%num).
      { rewrite <- E2. apply (osum_nonneg OK); auto. intros z [Z1 Z2]. apply (wt_nonneg OK) with (sz := sz); auto. apply u_ge; auto. apply p_ge.
        intros a Ia. destruct (in_dec Nat.eq_dec a R2) as [I|I]; auto. rewrite Z1 by auto. apply RG, in_app_iff. right. unfold Q2. apply filter_In. split; auto.
        destruct (mem a Q) eqn:M; auto. exfalso. apply I. unfold R2. apply filter_In. rewrite M. auto. intros q Iq. apply RG, in_app_iff; auto. }
      rewrite (osum_factor OK k sz R1 ND1 _ (wt adj psi u S) (C2 * locals Q2 y)%num y L2).
      + rewrite (E1 y). ring. intros q Iq. apply RG, in_app_iff; auto.
      + intros z [Z1 Z2].
        assert (AG : forall a, In a O -> z a = y a).
        { intros a Ia. apply Z1. intros I. apply filter_In in I as [I _]. apply (NoDup_disjoint S O a); auto. }
        rewrite (osum_factor OK k sz R2 ND2 _ (wt adj psi u O) (wt adj psi u S z) z).
        * rewrite (E2 z). rewrite (locals_agree Q2 z y). ring. intros a Ia. apply AG. apply filter_In in Ia; tauto.
          intros q Iq. rewrite AG. apply RG, in_app_iff; auto. apply filter_In in Iq; tauto.
        * apply (wt_nonneg OK) with (sz := sz). apply u_ge. intros a Ia; apply hid_In; auto. apply p_ge.
          intros a Ia. destruct (in_dec Nat.eq_dec a R1) as [I|I]; auto. rewrite Z1 by auto. apply RG, in_app_iff. left. unfold Q1. apply filter_In. split; auto.
          destruct (mem a Q) eqn:M; auto. exfalso. apply I. unfold R1. apply filter_In. rewrite M. auto.
        * intros w [V1 V2]. change (concat (S :: ls)) with (S ++ O). rewrite (wt_app OK adj psi u S O w DJ). f_equal. apply wt_agree. intros a Ia. apply V1.
          intros I. apply filter_In in I as [I _]. apply (NoDup_disjoint S O a); auto.
  Qed.

  Theorem parts_total : exists R C, Permutation (hid s0) (Q ++ R) /\ (n0 < C)%num /\
    forall y, obs_ok s0 y -> (forall q, In q Q -> y q < sz q) -> osum k sz R (fun y => W (asg_of s0 y)) y = (C * locals Q y)%num.
  Proof.
    pose proof (cp_perm _ _ _ LS) as PC.
    assert (NDC : NoDup (concat nds)) by (eapply Permutation_NoDup; [symmetry; apply LS|apply hid_NoDup]).
    destruct (all_parts nds (incl_refl _) NDC) as (C & PCp & EC).
    set (Ql := filter (fun a => mem a Q) (concat nds)) in *. set (R := filter (fun a => negb (mem a Q)) (concat nds)) in *.
    assert (PQ : Permutation Ql Q).
    { apply NoDup_Permutation; auto. apply NoDup_filter; auto. intros a. unfold Ql. rewrite filter_In, mem_In. split; [tauto|]. intros I. split; auto.
      apply (Permutation_in _ (Permutation_sym PC)). auto. }
    assert (PH : Permutation (hid s0) (Q ++ R)).
    { rewrite <- PC. rewrite (filter_split (fun a => mem a Q) (concat nds)). apply Permutation_app_tail. auto. }
    assert (NDR : NoDup R) by (apply NoDup_filter; auto).
    exists R, (const_wt H s0 A * C)%num. split; [auto|]. split. apply ok_mul; auto.
    intros y OB RG. rewrite (osum_factor OK k sz R NDR _ (wt adj psi u (concat nds)) (const_wt H s0 A) y).
    - rewrite EC. rewrite (locals_perm Ql Q y PQ). ring. intros q Iq. apply RG. apply (Permutation_in _ PQ); auto.
    - apply nlt_le; auto.
    - intros w [V1 V2]. rewrite (weight_nodes OK H s0 A C0 AB CL0 w).
      + f_equal. apply (wt_perm OK adj (fun a b => adjb_sym H s0 _ a b C0) psi (fun a b i j => psi_sym H HG s0 _ a b i j C0)). symmetry; auto.
      + intros b m Eb. rewrite V1; auto. intros J. assert (I : In b (hid s0)) by (apply (Permutation_in _ (Permutation_sym PH)), in_app_iff; auto).
        apply hid_In in I. destruct I; congruence.
  Qed.
End Parts.
