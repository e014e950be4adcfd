(** The distribution of a variable depends only on what is around it *)
From Coq Require Import String List Arith Bool Lia Permutation Relations Field.
From Verif Require Import Res Num Categoric Combs Func FuncProofs FactorProofs FactorApi Special Graph GraphLemmas GraphInv BeliefInv BigOp Sums GraphSpec Hist BeliefSpec Rebuild SeparateSpec.
Import ListNotations.
Open Scope nat_scope.

Definition mem (l : list var) (u : var) : bool := existsb (same_instance u) l.
Lemma mem_In l u : mem l u = true <-> In u l.
Proof.
  unfold mem. rewrite existsb_exists. split.
  - intros (w & J & Q). apply same_instance_spec in Q. subst. auto.
  - intros J. exists u. split; auto. apply same_instance_spec. auto.
Qed.
Lemma mem_out l u : mem l u = false <-> ~ In u l.
Proof. rewrite <- mem_In. destruct (mem l u); split; intros; congruence. Qed.

(** the variables reached from [v] *)
Lemma reached (E : var -> var -> Prop) (Eb : var -> var -> bool) (L : list var) v : (forall x y, Eb x y = true <-> E x y) -> (forall x y, E x y -> In y L) -> NoDup L -> In v L ->
  exists K, NoDup K /\ forall w, In w K <-> clos_refl_trans var E v w.
Proof.
  intros EB EL ND IV.
  assert (G : forall n K, NoDup K -> incl K L -> In v K -> (forall w, In w K -> clos_refl_trans var E v w) -> length L - length K <= n -> exists K, NoDup K /\ forall w, In w K <-> clos_refl_trans var E v w).
  { induction n as [|n IH]; intros K NK IK VK RK LE.
    - exists K. split; auto. intros w. split; auto. intros R.
      assert (I : incl L K). { apply NoDup_length_incl; auto. lia. }
      apply clos_rt_rtn1 in R. destruct R as [|y z Q R]; auto. apply I. eapply EL; eauto.
    - destruct (existsb (fun x => existsb (fun y => Eb x y && negb (mem K y)) L) K) eqn:Q.
      + apply existsb_exists in Q as (x & Jx & Q). apply existsb_exists in Q as (y & Jy & Q). apply andb_true_iff in Q as [Q1 Q2]. apply negb_true_iff in Q2. apply mem_out in Q2. apply EB in Q1.
        apply (IH (y :: K)). constructor; auto. intros z [<-|Z]; auto. right; auto.
        intros z [<-|Z]; auto. eapply rt_trans; [apply RK; eauto|]. apply rt_step; auto.
        cbn [length]. pose proof (NoDup_incl_length NK IK). lia.
      + exists K. split; auto. intros w. split; auto. intros R. apply clos_rt_rtn1 in R. induction R as [|y z Q1 R IR]; auto.
        destruct (mem K z) eqn:M; [apply mem_In; auto|]. exfalso. apply Bool.not_true_iff_false in Q. apply Q. apply existsb_exists. exists y. split; auto.
        apply existsb_exists. exists z. split. eapply EL; eauto. rewrite (proj2 (EB y z) Q1), M. auto. }
  apply (G (length L) [v]). constructor; auto. constructor. intros z [<-|[]]; auto. left; auto. intros w [<-|[]]. apply rt_refl. simpl. lia.
Qed.

Lemma all_asg_cat vs : forall ws x y, In x (all_asg vs) -> In y (all_asg ws) -> In (x ++ y) (all_asg (vs ++ ws)).
Proof.
  induction vs as [|v vs IH]; cbn [all_asg]; intros ws x y Jx Jy.
  - destruct Jx as [<-|[]]. auto.
  - apply in_flat_map in Jx as (k & Jk & Jx). apply in_map_iff in Jx as (x' & <- & Jx). cbn [app all_asg]. apply in_flat_map. exists k. split; auto. apply in_map. auto.
Qed.
Lemma val_left vs : forall x y u, In x (all_asg vs) -> In u vs -> val (x ++ y) u = val x u.
Proof.
  induction vs as [|v vs IH]; cbn [all_asg]; intros x y u Jx Ju. contradiction.
  apply in_flat_map in Jx as (k & Jk & Jx). apply in_map_iff in Jx as (x' & <- & Jx). cbn [app val]. destruct (same_instance u v) eqn:Q; auto.
  apply same_instance_false in Q. destruct Ju as [<-|Ju]; [congruence|]. auto.
Qed.
Lemma val_right vs : forall x y u, In x (all_asg vs) -> ~ In u vs -> val (x ++ y) u = val y u.
Proof.
  induction vs as [|v vs IH]; cbn [all_asg]; intros x y u Jx Ju. destruct Jx as [<-|[]]. auto.
  apply in_flat_map in Jx as (k & Jk & Jx). apply in_map_iff in Jx as (x' & <- & Jx). cbn [app val In] in *. destruct (same_instance u v) eqn:Q.
  apply same_instance_spec in Q. subst. tauto. apply IH; auto.
Qed.

Section Separate.
  Context {N : num} (OK : num_ok N).
  Add Field sep_field : (ok_field N OK).

  Lemma all_asg_app k (vs ws : list var) : forall G : asg -> N, (forall x, In x (all_asg (vs ++ ws)) -> (n0 <= G x)%num) ->
    bigL k G (all_asg (vs ++ ws)) = bigL k (fun x => bigL k (fun y => G (x ++ y)) (all_asg ws)) (all_asg vs).
  Proof.
    induction vs as [|v vs IH]; intros G NN.
    - cbn [all_asg app bigL fold_right]. symmetry. rewrite (op_comm OK). apply (op_0_l OK). apply (bigL_nonneg OK). intros y J. apply NN. auto.
    - cbn [app all_asg] in *.
      assert (N1 : forall j x, In j (seq 0 (vsize v)) -> In x (map (cons (v, j)) (all_asg (vs ++ ws))) -> (n0 <= G x)%num).
      { intros j x Jj Jx. apply NN. apply in_flat_map. exists j. auto. }
      rewrite (bigL_flat_map OK); auto. rewrite (bigL_flat_map OK).
      + apply bigL_ext. intros j Jj. rewrite !bigL_map. rewrite IH. apply bigL_ext. intros x Jx. auto.
        intros x Jx. apply (N1 j); auto. apply in_map. auto.
      + intros j x Jj Jx. apply in_map_iff in Jx as (x' & <- & Jx). apply (bigL_nonneg OK). intros y Jy. apply (N1 j); auto. apply (in_map (cons (v, j))). apply all_asg_cat; auto.
  Qed.

  Section One.
    Variables (F : nat -> func N) (A : spec).
    (** what holds of every model that the calls can reach *)
    Record sound : Prop := {
      sd_vars : NoDup (sp_vars A);
      sd_facs : NoDup (sp_facs A);
      sd_in : forall f v, In f (sp_facs A) -> In v (f_vars (F f)) -> In v (sp_vars A);
      sd_arity : forall f, In f (sp_facs A) -> (exists v, f_vars (F f) = [v]) \/ exists v w, f_vars (F f) = [v; w];
      sd_nonneg : forall f (g : var -> nat), In f (sp_facs A) -> (forall u, In u (f_vars (F f)) -> g u < vsize u) -> (n0 <= fval (F f) (map g (f_vars (F f))))%num;
      sd_ev : forall u k, In u (sp_vars A) -> sp_evidence A u = Some k -> k < vsize u
    }.
    Hypothesis S : sound.

    Definition edgeb (x y : var) : bool :=
      match sp_evidence A x, sp_evidence A y with
      | None, None => mem (sp_vars A) x && mem (sp_vars A) y && existsb (fun f => match f_vars (F f) with [a; b] => (same_instance a x && same_instance b y) || (same_instance a y && same_instance b x) | _ => false end) (sp_facs A)
      | _, _ => false
      end.
    Lemma edgeb_ok x y : edgeb x y = true <-> hidden_edge F A x y.
    Proof.
      unfold edgeb, hidden_edge, hidden, joins, fv. split.
      - destruct (sp_evidence A x), (sp_evidence A y); try discriminate. intros Q. apply andb_true_iff in Q as [Q Q3]. apply andb_true_iff in Q as [Q1 Q2]. apply mem_In in Q1, Q2.
        apply existsb_exists in Q3 as (f & J & Q). split; auto. split; auto. exists f. split; auto. destruct (f_vars (F f)) as [|a [|b [|]]]; try discriminate.
        apply orb_true_iff in Q as [Q|Q]; apply andb_true_iff in Q as [T1 T2]; apply same_instance_spec in T1, T2; subst; auto.
      - intros ((Jx & Ex) & (Jy & Ey) & f & J & Q). rewrite Ex, Ey, (proj2 (mem_In _ _) Jx), (proj2 (mem_In _ _) Jy). cbn [andb]. apply existsb_exists. exists f. split; auto.
        destruct Q as [-> | ->]; rewrite ?(proj2 (same_instance_spec x x) eq_refl), ?(proj2 (same_instance_spec y y) eq_refl); cbn [andb]; auto using orb_true_r.
    Qed.
    Lemma linked_list v : hidden A v -> exists K, NoDup K /\ forall w, In w K <-> hidden_linked F A v w.
    Proof.
      intros [J _]. apply (reached (hidden_edge F A) edgeb (sp_vars A)); auto. apply edgeb_ok. intros x y (_ & [Q _] & _). auto. apply S.
    Qed.

    Variable K : list var.
    Hypothesis NK : NoDup K.
    Hypothesis KH : forall w, In w K -> hidden A w.
    Hypothesis KC : forall w u, In w K -> hidden_edge F A w u -> In u K.

    Definition touches (f : nat) : bool := existsb (mem K) (f_vars (F f)).
    Lemma touches_about f : In f (sp_facs A) -> (touches f = true <-> exists w, In w K /\ about F A w f).
    Proof.
      intros J. unfold touches. rewrite existsb_exists. split.
      - intros (w & Jw & M). apply mem_In in M. exists w. split; auto. split; auto.
      - intros (w & Jw & _ & Q). exists w. split; auto. apply mem_In; auto.
    Qed.
    Definition seen (z : asg) (u : var) : nat := match sp_evidence A u with Some k => k | None => val z u end.
    Definition near (z : asg) : N := prodL (fun f => fval (F f) (map (seen z) (f_vars (F f)))) (filter touches (sp_facs A)).
    Definition far (z : asg) : N := prodL (fun f => fval (F f) (map (val z) (f_vars (F f)))) (filter (fun f => negb (touches f)) (sp_facs A)).

    (** a factor that touches [K] has its variables in [K] or observed *)
    Lemma touched f u : In f (sp_facs A) -> touches f = true -> In u (f_vars (F f)) -> In u K \/ sp_evidence A u <> None.
    Proof.
      intros J T Ju. apply (touches_about f J) in T as (w & Jw & _ & Q). destruct (sp_evidence A u) eqn:E; [right; congruence|left].
      assert (Hu : hidden A u). { split; auto. eapply (sd_in S); eauto. }
      destruct (sd_arity S f J) as [(a & Ea)|(a & b & Ea)]; rewrite Ea in *; cbn [In] in *.
      - destruct Q as [<-|[]]. destruct Ju as [<-|[]]. auto.
      - assert (E1 : w = u \/ hidden_edge F A w u).
        { destruct Q as [<-|[<-|[]]]; destruct Ju as [<-|[<-|[]]]; auto; right; split; auto; split; auto; exists f; split; auto; unfold fv; rewrite Ea; auto. }
        destruct E1 as [<-|E1]; auto. apply (KC w u Jw E1).
    Qed.
    Lemma weight_split z : agrees A z = true -> weight F A z = (near z * far z)%num.
    Proof.
      intros AG. unfold weight, near, far. rewrite (prodL_filter_split OK touches). f_equal. apply prodL_ext. intros f J. apply filter_In in J as [J T].
      f_equal. apply map_ext_in. intros u Ju. unfold seen. destruct (sp_evidence A u) eqn:E; auto. unfold agrees in AG. rewrite forallb_forall in AG.
      specialize (AG u (sd_in S f u J Ju)). rewrite E in AG. apply Nat.eqb_eq in AG. auto.
    Qed.
    Lemma near_val x y : (forall u, In u K -> val x u = val y u) -> near x = near y.
    Proof.
      intros Q. unfold near. apply prodL_ext. intros f J. apply filter_In in J as [J T]. f_equal. apply map_ext_in. intros u Ju. unfold seen.
      destruct (sp_evidence A u) eqn:E; auto. destruct (touched f u J T Ju); auto. congruence.
    Qed.
    Lemma far_val x y : (forall u, In u (sp_vars A) -> ~ In u K -> val x u = val y u) -> far x = far y.
    Proof.
      intros Q. unfold far. apply prodL_ext. intros f J. apply filter_In in J as [J T]. f_equal. apply map_ext_in. intros u Ju.
      apply Q. eapply (sd_in S); eauto. intros JK. apply negb_true_iff in T. apply Bool.not_true_iff_false in T. apply T. apply (touches_about f J). exists u. split; auto. split; auto.
    Qed.
    Lemma near_nonneg z : (forall u, In u K -> val z u < vsize u) -> (n0 <= near z)%num.
    Proof.
      intros R. apply (prodL_nonneg OK). intros f J. apply filter_In in J as [J T]. apply (sd_nonneg S); auto. intros u Ju. unfold seen.
      destruct (sp_evidence A u) eqn:E. eapply (sd_ev S); eauto. eapply (sd_in S); eauto. destruct (touched f u J T Ju); auto. congruence.
    Qed.
    Lemma far_nonneg z : (forall u, In u (sp_vars A) -> ~ In u K -> val z u < vsize u) -> (n0 <= far z)%num.
    Proof.
      intros R. apply (prodL_nonneg OK). intros f J. apply filter_In in J as [J T]. apply (sd_nonneg S); auto. intros u Ju. apply R. eapply (sd_in S); eauto.
      intros JK. apply negb_true_iff in T. apply Bool.not_true_iff_false in T. apply T. apply (touches_about f J). exists u. split; auto. split; auto.
    Qed.

    Definition others : list var := filter (fun u => negb (mem K u)) (sp_vars A).
    Lemma others_In u : In u others <-> In u (sp_vars A) /\ ~ In u K.
    Proof. unfold others. rewrite filter_In, negb_true_iff, mem_out. tauto. Qed.
    Lemma vars_split : Permutation (sp_vars A) (K ++ others).
    Proof.
      apply NoDup_Permutation. apply S.
      - apply NoDup_app_intro; auto. apply NoDup_filter, S. intros u J1 J2. apply others_In in J2. tauto.
      - intros u. rewrite in_app_iff, others_In. split. intros J. destruct (mem K u) eqn:M. left. apply mem_In; auto. right. split; auto. apply mem_out; auto.
        intros [J|J]; [|tauto]. apply (KH u J).
    Qed.
    Definition agrees_far (y : asg) : bool := forallb (fun v => match sp_evidence A v with Some k => val y v =? k | None => true end) others.
    Lemma agrees_split z y : (forall u, In u others -> val z u = val y u) -> agrees A z = agrees_far y.
    Proof.
      intros Q. unfold agrees, agrees_far. apply eq_true_iff_eq. rewrite !forallb_forall. split; intros T u J.
      - rewrite <- Q by auto. apply T. apply others_In in J. tauto.
      - destruct (mem K u) eqn:M.
        + apply mem_In in M. destruct (KH u M) as [_ E]. rewrite E. auto.
        + assert (J' : In u others). { apply others_In. split; auto. apply mem_out; auto. } rewrite Q by auto. apply T. auto.
    Qed.
    Lemma weight_range z : agrees A z = true -> (forall u, In u (sp_vars A) -> val z u < vsize u) -> (n0 <= weight F A z)%num.
    Proof.
      intros AG R. rewrite (weight_split z AG). apply (nmul_nonneg OK). apply near_nonneg. intros u J. apply R. apply (KH u J). apply far_nonneg. auto.
    Qed.

    Definition near_mass (P : asg -> bool) : N := bigL SUM (fun x => if P x then near x else n0) (all_asg K).
    Definition far_mass : N := bigL SUM (fun y => if agrees_far y then far y else n0) (all_asg others).
    Theorem mass_split (P : asg -> bool) : (forall x y, (forall u, In u K -> val x u = val y u) -> P x = P y) ->
      mass (weight F A) A P = (near_mass P * far_mass)%num.
    Proof.
      intros PK. set (G := fun x => if agrees A x && P x then weight F A x else n0). change (mass (weight F A) A P) with (bigL SUM G (all_asg (sp_vars A))).
      assert (GR : forall x, (forall v, In v (sp_vars A) -> val x v < vsize v) -> (n0 <= G x)%num).
      { intros x R. unfold G. destruct (agrees A x) eqn:AG; cbn [andb]; [|apply (nle_refl OK)]. destruct (P x); [|apply (nle_refl OK)]. apply weight_range; auto. }
      rewrite (all_asg_perm OK SUM _ _ vars_split (sd_vars S) G); auto.
      - rewrite all_asg_app.
        + transitivity (bigL SUM (fun x => far_mass * (if P x then near x else n0))%num (all_asg K)).
          * apply bigL_ext. intros x Jx. replace (far_mass * (if P x then near x else n0))%num with ((if P x then near x else n0) * far_mass)%num by ring. unfold far_mass.
            rewrite <- (bigL_mul OK SUM).
            { apply bigL_ext. intros y Jy. unfold G.
              assert (V1 : forall u, In u K -> val (x ++ y) u = val x u) by (intros u Ju; apply (val_left K); auto).
              assert (V2 : forall u, ~ In u K -> val (x ++ y) u = val y u) by (intros u Ju; apply (val_right K); auto).
              rewrite (agrees_split (x ++ y) y) by (intros u Ju; apply V2; apply others_In in Ju; tauto).
              rewrite (PK (x ++ y) x) by auto. destruct (agrees_far y) eqn:AY; cbn [andb]; [|destruct (P x); ring].
              destruct (P x); [|ring]. rewrite weight_split. 2: { rewrite (agrees_split (x ++ y) y); auto. intros u Ju; apply V2; apply others_In in Ju; tauto. }
              rewrite (near_val (x ++ y) x) by auto. rewrite (far_val (x ++ y) y); auto. }
            destruct (P x); [|apply (nle_refl OK)]. apply near_nonneg. intros u Ju. apply (asg_val_range K NK x Jx u Ju).
          * rewrite (bigL_mul OK SUM). unfold near_mass. ring. apply (bigL_nonneg OK). intros y Jy. destruct (agrees_far y); [|apply (nle_refl OK)]. apply far_nonneg. intros u Ju NJ.
            assert (Jo : In u others) by (apply others_In; auto). eapply asg_val_range; [|exact Jy|exact Jo]. apply NoDup_filter, S.
        + intros x Jx. apply GR. intros u Ju. eapply asg_val_range; [|exact Jx|]. eapply Permutation_NoDup; [apply vars_split|apply S]. eapply Permutation_in; [apply vars_split|auto].
      - intros x y Q. unfold G. rewrite (agrees_val A x y) by auto. rewrite (PK x y). 2: { intros u Ju. apply Q. apply (KH u Ju). }
        destruct (agrees A y && P y); auto. unfold weight. apply prodL_ext. intros f J. f_equal. apply map_ext_in. intros u Ju. apply Q. eapply (sd_in S); eauto.
    Qed.
  End One.

  Section Two.
    Variables (F : nat -> func N) (A : spec) (F' : nat -> func N) (A' : spec) (v : var).
    Hypothesis S : sound F A.
    Hypothesis S' : sound F' A'.
    Hypothesis SA : same_around F A F' A' v.

    Lemma linked_hidden w : hidden_linked F A v w -> hidden A w.
    Proof. intros R. apply clos_rt_rtn1 in R. destruct R as [|y z (_ & Q & _) R]; auto. apply SA. Qed.
    Lemma linked_edge' w u : hidden_linked F A v w -> hidden_edge F' A' w u -> hidden_edge F A w u.
    Proof.
      intros R ((Jw & Ew) & (Ju & Eu) & f & J & Q). unfold fv in Q.
      assert (B' : about F' A' w f). { split; auto. destruct Q as [-> | ->]; simpl; auto. }
      pose proof (proj2 (sa_facs _ _ _ _ _ SA w f R) B') as B. pose proof (sa_same _ _ _ _ _ SA w f R B) as EF. rewrite EF in Q.
      assert (Iu : In u (f_vars (F f))) by (destruct Q as [-> | ->]; simpl; auto).
      split. apply linked_hidden; auto. split. split. eapply (sd_in F A S); eauto; apply B. rewrite <- (sa_ev _ _ _ _ _ SA w f u R B Iu). auto.
      exists f. split; auto. apply B.
    Qed.
    Lemma linked_edge w u : hidden_linked F A v w -> hidden A' w -> hidden_edge F A w u -> hidden_edge F' A' w u.
    Proof.
      intros R Hw (_ & (Ju & Eu) & f & J & Q). unfold fv in Q.
      assert (B : about F A w f). { split; auto. destruct Q as [-> | ->]; simpl; auto. }
      pose proof (proj1 (sa_facs _ _ _ _ _ SA w f R) B) as B'. pose proof (sa_same _ _ _ _ _ SA w f R B) as EF.
      assert (Iu : In u (f_vars (F f))) by (destruct Q as [-> | ->]; simpl; auto).
      split; auto. split. split. eapply (sd_in F' A' S'). apply B'. rewrite EF. auto. rewrite (sa_ev _ _ _ _ _ SA w f u R B Iu). auto.
      exists f. split. apply B'. unfold fv. rewrite EF. auto.
    Qed.
    Lemma linked_same w : hidden_linked F A v w <-> hidden_linked F' A' v w.
    Proof.
      split; intros R.
      - assert (G : hidden A' w /\ hidden_linked F' A' v w); [|tauto]. apply clos_rt_rtn1 in R. induction R as [|y z Q R IR].
        + split. apply SA. apply rt_refl.
        + destruct IR as [H1 H2]. apply clos_rtn1_rt in R. pose proof (linked_edge y z R H1 Q) as E. split. apply E. eapply rt_trans; [exact H2|]. apply rt_step; auto.
      - apply clos_rt_rtn1 in R. induction R as [|y z Q R IR]. apply rt_refl. eapply rt_trans; [exact IR|]. apply rt_step. apply linked_edge'; auto.
    Qed.
    Lemma linked_hidden' w : hidden_linked F A v w -> hidden A' w.
    Proof. intros R. apply linked_same in R. apply clos_rt_rtn1 in R. destruct R as [|y z (_ & Q & _) R]; auto. apply SA. Qed.
    Lemma around_sym : same_around F' A' F A v.
    Proof.
      constructor.
      - split; apply SA.
      - intros w f R. apply linked_same in R. symmetry. apply (sa_facs _ _ _ _ _ SA); auto.
      - intros w f R B. apply linked_same in R. symmetry. apply (sa_same _ _ _ _ _ SA w); auto. apply (sa_facs _ _ _ _ _ SA); auto.
      - intros w f u R B Iu. apply linked_same in R. apply (sa_facs _ _ _ _ _ SA w f R) in B. symmetry. apply (sa_ev _ _ _ _ _ SA w f); auto. rewrite <- (sa_same _ _ _ _ _ SA w f R B). auto.
    Qed.
    Lemma around_tree : tree_around F A v -> tree_around F' A' v.
    Proof.
      intros T (c & RG & L). apply T. exists c. split; [|intros w J; apply linked_same; auto].
      destruct RG as (L3 & ND & E). split; auto. split; auto. intros i x y Q1 Q2. apply linked_edge'. apply linked_same. apply L. eapply nth_error_In; eauto. eapply E; eauto.
    Qed.

    Variable K : list var.
    Hypothesis NK : NoDup K.
    Hypothesis KL : forall w, In w K <-> hidden_linked F A v w.
    Lemma K_hidden w : In w K -> hidden A w.
    Proof. intros J. apply linked_hidden. apply KL. auto. Qed.
    Lemma K_hidden' w : In w K -> hidden A' w.
    Proof. intros J. apply linked_hidden'. apply KL. auto. Qed.
    Lemma K_closed w u : In w K -> hidden_edge F A w u -> In u K.
    Proof. intros J Q. apply KL. eapply rt_trans. apply KL; eauto. apply rt_step; auto. Qed.
    Lemma K_closed' w u : In w K -> hidden_edge F' A' w u -> In u K.
    Proof. intros J Q. apply (K_closed w u J). apply linked_edge'; auto. apply KL; auto. Qed.
    Lemma near_same x : near F A K x = near F' A' K x.
    Proof.
      unfold near. transitivity (prodL (fun f => fval (F' f) (map (seen A' x) (f_vars (F' f)))) (filter (touches F K) (sp_facs A))).
      - apply prodL_ext. intros f J. apply filter_In in J as [J T]. apply (touches_about F A K f J) in T as (w & Jw & B). apply KL in Jw.
        rewrite (sa_same _ _ _ _ _ SA w f Jw B). f_equal. apply map_ext_in. intros u Ju. unfold seen. rewrite (sa_ev _ _ _ _ _ SA w f u Jw B Ju). auto.
      - apply (prodL_perm OK). apply NoDup_Permutation; try (apply NoDup_filter; apply S || apply S'). intros f. rewrite !filter_In. split; intros [J T].
        + apply (touches_about F A K f J) in T as (w & Jw & B). pose proof (proj1 (sa_facs _ _ _ _ _ SA w f (proj1 (KL w) Jw)) B) as B'. split. apply B'.
          apply (touches_about F' A' K f (proj1 B')). exists w. auto.
        + apply (touches_about F' A' K f J) in T as (w & Jw & B'). pose proof (proj2 (sa_facs _ _ _ _ _ SA w f (proj1 (KL w) Jw)) B') as B. split. apply B.
          apply (touches_about F A K f (proj1 B)). exists w. auto.
    Qed.
    Lemma near_mass_same P : near_mass F A K P = near_mass F' A' K P.
    Proof. unfold near_mass. apply bigL_ext. intros x _. rewrite near_same. auto. Qed.
  End Two.

  Lemma mass_pos (F : nat -> func N) A : sound F A -> positive (weight F A) A -> (n0 < mass (weight F A) A (fun _ => true))%num.
  Proof.
    intros S (x & [J AG] & P). change (n0 < bigL SUM (fun x => if agrees A x && true then weight F A x else n0) (all_asg (sp_vars A)))%num.
    apply (bigL_pos OK SUM) with (a := x); auto.
    - intros y Jy. destruct (agrees A y) eqn:AY; cbn [andb]; [|apply (nle_refl OK)]. apply (weight_range F A S []); auto; try (intros w []; fail); try (intros w u []; fail). intros u Ju. apply (asg_val_range _ (sd_vars _ _ S) y Jy u Ju).
    - rewrite AG. cbn [andb]. auto.
  Qed.

  (** the probability of an event about the variables linked to [v] *)
  Theorem around_probability F A F' A' v P : sound F A -> sound F' A' -> same_around F A F' A' v -> positive (weight F A) A -> positive (weight F' A') A' -> event_around F A v P ->
    (mass (weight F A) A P / mass (weight F A) A (fun _ => true) = mass (weight F' A') A' P / mass (weight F' A') A' (fun _ => true))%num.
  Proof.
    intros S S' SA P1 P2 EV. destruct (linked_list F A S v (proj1 (sa_hidden _ _ _ _ _ SA))) as (K & NK & KL).
    assert (PK : forall x y, (forall u, In u K -> val x u = val y u) -> P x = P y). { intros x y Q. apply EV. intros u R. apply Q. apply KL; auto. }
    pose proof (mass_pos F A S P1) as M1. pose proof (mass_pos F' A' S' P2) as M2.
    assert (Q1 : forall R, (forall x y, (forall u, In u K -> val x u = val y u) -> R x = R y) -> mass (weight F A) A R = (near_mass F A K R * far_mass F A K)%num).
    { intros R. apply mass_split; auto. apply (K_hidden F A F' A' v SA K KL). apply (K_closed F A v K KL). }
    assert (Q2 : forall R, (forall x y, (forall u, In u K -> val x u = val y u) -> R x = R y) -> mass (weight F' A') A' R = (near_mass F A K R * far_mass F' A' K)%num).
    { intros R RK. rewrite (near_mass_same F A F' A' v S S' SA K KL). apply mass_split; auto. apply (K_hidden' F A F' A' v S S' SA K KL). apply (K_closed' F A F' A' v S SA K KL). }
    assert (T : forall x y : asg, (forall u, In u K -> val x u = val y u) -> true = true) by auto.
    rewrite (Q1 P PK), (Q2 P PK). rewrite (Q1 (fun _ => true) T) in *. rewrite (Q2 (fun _ => true) T) in *.
    assert (NZ : forall x y : N, (n0 < x * y)%num -> x <> n0 /\ y <> n0).
    { intros x y L. split; intros ->; apply (nlt_neq' OK) in L; apply L; ring. }
    destruct (NZ _ _ M1) as [Z1 Z2]. destruct (NZ _ _ M2) as [Z3 Z4]. field. auto.
  Qed.

  (** most probable values *)
  Definition first_best (w : asg -> N) A v j : Prop :=
    (exists x, most_probable w A x /\ val x v = j) /\ forall x, most_probable w A x -> j <= val x v.
  Lemma around_best_le F A F' A' v j j' : sound F A -> sound F' A' -> same_around F A F' A' v -> positive (weight F A) A -> positive (weight F' A') A' ->
    first_best (weight F A) A v j -> first_best (weight F' A') A' v j' -> j' <= j.
  Proof.
    intros S S' SA P1 P2 [(x & MX & Vx) _] [(z & MZ & _) Lz]. destruct (linked_list F A S v (proj1 (sa_hidden _ _ _ _ _ SA))) as (K & NK & KL).
    pose proof (K_hidden F A F' A' v SA K KL) as KH. pose proof (K_hidden' F A F' A' v S S' SA K KL) as KH'.
    pose proof (K_closed F A v K KL) as KC. pose proof (K_closed' F A F' A' v S SA K KL) as KC'.
    destruct MX as [[Jx Ax] Bx]. destruct MZ as [[Jz Az] Bz].
    assert (Rx : forall u, In u (sp_vars A) -> val x u < vsize u) by (apply (asg_val_range _ (sd_vars _ _ S) x Jx)).
    assert (Rz : forall u, In u (sp_vars A') -> val z u < vsize u) by (apply (asg_val_range _ (sd_vars _ _ S') z Jz)).
    (* the values of [b] on [K], of [a] elsewhere *)
    set (mix := fun (a b : asg) (u : var) => if mem K u then val b u else val a u).
    set (put := fun (vs : list var) (a b : asg) => map (fun u => (u, mix a b u)) vs).
    assert (PV : forall vs a b u, In u vs -> val (put vs a b) u = mix a b u).
    { intros vs a b u J. induction vs as [|w vs IH]; [destruct J|]. cbn [put map val]. destruct (same_instance u w) eqn:Q. apply same_instance_spec in Q. subst; auto.
      apply same_instance_false in Q. destruct J; [congruence|]. apply IH. auto. }
    assert (PI : forall vs a b, (forall u, In u vs -> mix a b u < vsize u) -> In (put vs a b) (all_asg vs)).
    { intros vs a b. induction vs as [|w vs IH]; intros R; [left; auto|]. cbn [put map all_asg]. apply in_flat_map. exists (mix a b w). split. apply in_seq. pose proof (R w (or_introl eq_refl)). lia. apply in_map. apply IH. intros u J. apply R. right; auto. }
    (* weights of mixed assignments *)
    assert (MA : forall y, (forall u, In u K -> val y u < vsize u) -> let m := put (sp_vars A) x y in possible A m /\ weight F A m = (near F A K y * far F A K x)%num).
    { intros y Ry m. assert (V1 : forall u, In u K -> val m u = val y u). { intros u J. unfold m. rewrite PV by apply (KH u J). unfold mix. rewrite (proj2 (mem_In K u) J). auto. }
      assert (V2 : forall u, In u (sp_vars A) -> ~ In u K -> val m u = val x u). { intros u J NJ. unfold m. rewrite PV by auto. unfold mix. rewrite (proj2 (mem_out K u) NJ). auto. }
      assert (AG : agrees A m = true).
      { rewrite (agrees_split A K KH m x). rewrite <- Ax. symmetry. apply (agrees_split A K KH). auto. intros u J. apply (others_In A K) in J. apply V2; tauto. }
      split. split; auto. apply PI. intros u J. unfold mix. destruct (mem K u) eqn:M; auto. apply Ry. apply mem_In; auto.
      rewrite (weight_split F A S K m AG). rewrite (near_val F A S K KH KC m y) by auto. rewrite (far_val F A S K m x); auto. }
    assert (MB : forall y, (forall u, In u K -> val y u < vsize u) -> let m := put (sp_vars A') z y in possible A' m /\ weight F' A' m = (near F A K y * far F' A' K z)%num).
    { intros y Ry m. assert (V1 : forall u, In u K -> val m u = val y u). { intros u J. unfold m. rewrite PV by apply (KH' u J). unfold mix. rewrite (proj2 (mem_In K u) J). auto. }
      assert (V2 : forall u, In u (sp_vars A') -> ~ In u K -> val m u = val z u). { intros u J NJ. unfold m. rewrite PV by auto. unfold mix. rewrite (proj2 (mem_out K u) NJ). auto. }
      assert (AG : agrees A' m = true).
      { rewrite (agrees_split A' K KH' m z). rewrite <- Az. symmetry. apply (agrees_split A' K KH'). auto. intros u J. apply (others_In A' K) in J. apply V2; tauto. }
      split. split; auto. apply PI. intros u J. unfold mix. destruct (mem K u) eqn:M; auto. apply Ry. apply mem_In; auto.
      rewrite (weight_split F' A' S' K m AG). rewrite (near_same F A F' A' v S S' SA K KL y). rewrite (near_val F' A' S' K KH' KC' m y) by auto. rewrite (far_val F' A' S' K m z); auto. }
    assert (Kx : forall u, In u K -> val x u < vsize u) by (intros u J; apply Rx, KH; auto).
    assert (Kz : forall u, In u K -> val z u < vsize u) by (intros u J; apply Rz, KH'; auto).
    destruct (MA z Kz) as [PA EA]. destruct (MB x Kx) as [PB EB]. apply Bx in PA. rewrite EA, (weight_split F A S K x Ax) in PA.
    assert (FX : (n0 < far F A K x)%num).
    { destruct P1 as (y & Py & Ly). apply Bx in Py. assert (L : (n0 < weight F A x)%num) by (eapply (nlt_le_trans OK); eauto).
      rewrite (weight_split F A S K x Ax) in L. apply (nmul_pos_inv OK) in L; [tauto| |]. apply near_nonneg; auto. apply far_nonneg; auto. }
    assert (NL : (near F A K z <= near F A K x)%num).
    { pose proof (ninv_pos OK _ FX) as IX. apply (nmul_le_l OK (1 / far F A K x)%num) in PA; [|apply (nlt_le OK); auto].
      replace (1 / far F A K x * (near F A K z * far F A K x))%num with (near F A K z) in PA by (field; apply (nlt_neq' OK); auto).
      replace (1 / far F A K x * (near F A K x * far F A K x))%num with (near F A K x) in PA by (field; apply (nlt_neq' OK); auto). auto. }
    assert (MM : most_probable (weight F' A') A' (put (sp_vars A') z x)).
    { split; auto. intros y Py. eapply (nle_trans OK); [apply Bz; auto|]. rewrite EB. rewrite (weight_split F' A' S' K z Az). rewrite <- (near_same F A F' A' v S S' SA K KL z).
      replace (near F A K z * far F' A' K z)%num with (far F' A' K z * near F A K z)%num by ring. replace (near F A K x * far F' A' K z)%num with (far F' A' K z * near F A K x)%num by ring.
      apply (nmul_le_l OK); auto. apply far_nonneg; auto. }
    apply Lz in MM. rewrite PV in MM by apply SA. unfold mix in MM. rewrite (proj2 (mem_In K v)) in MM. rewrite <- Vx. auto. apply KL. apply rt_refl.
  Qed.
  Theorem around_best F A F' A' v j j' : sound F A -> sound F' A' -> same_around F A F' A' v -> positive (weight F A) A -> positive (weight F' A') A' ->
    first_best (weight F A) A v j -> first_best (weight F' A') A' v j' -> j = j'.
  Proof.
    intros S S' SA P1 P2 B B'. apply Nat.le_antisymm. apply (around_best_le F' A' F A v j' j); auto. apply around_sym; auto. apply (around_best_le F A F' A' v j j'); auto.
  Qed.
End Separate.
