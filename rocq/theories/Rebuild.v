(** Sums and maxima over the assignments do not depend on the order of the
    variables and of the factors *)
From Coq Require Import String List Arith Bool Lia Permutation Relations Field.
From Verif Require Import Res Num Categoric Combs Func FuncProofs GroupProofs FactorProofs FactorApi Special SpecialProofs
  Graph GraphLemmas Clusters Belief Query GraphInv EvidInv BeliefInv BigOp Tree Cycle BPStep BPRun GraphSpec Hist P_Graph BeliefSpec Sums Exact BeliefHist Queries.
Import ListNotations.
Open Scope nat_scope.

(** the same variables, evidences and factors, in any order *)
Definition same_model (A A' : spec) : Prop :=
  Permutation (sp_vars A) (sp_vars A') /\ Permutation (sp_facs A) (sp_facs A') /\ forall v, sp_evidence A v = sp_evidence A' v.

Lemma same_model_refl A : same_model A A.
Proof. split; [|split]; auto. Qed.
Lemma same_model_sym A A' : same_model A A' -> same_model A' A.
Proof. intros (P & Q & R). split; [|split]; auto using Permutation_sym. Qed.

Lemma same_refl v : same_instance v v = true.
Proof. apply same_instance_spec; auto. Qed.

Lemma asg_val_range vs : NoDup vs -> forall x, In x (all_asg vs) -> forall v, In v vs -> val x v < vsize v.
Proof.
  induction 1 as [|w vs NI ND IH]; simpl; intros x Ix v Iv. contradiction.
  apply in_flat_map in Ix as (k & Ik & Ix). apply in_seq in Ik. apply in_map_iff in Ix as (y & <- & Iy). simpl.
  destruct (same_instance v w) eqn:Q. apply same_instance_spec in Q. subst. lia.
  apply same_instance_false in Q. destruct Iv; [congruence|]. auto.
Qed.
Definition canon (vs : list var) (x : asg) : asg := map (fun v => (v, val x v)) vs.
Lemma canon_val vs x v : In v vs -> val (canon vs x) v = val x v.
Proof.
  induction vs as [|w vs IH]; simpl; intros I. contradiction. destruct (same_instance v w) eqn:Q.
  apply same_instance_spec in Q. subst. auto. apply same_instance_false in Q. destruct I; [congruence|]. auto.
Qed.
Lemma canon_In vs x : (forall v, In v vs -> val x v < vsize v) -> In (canon vs x) (all_asg vs).
Proof.
  induction vs as [|w vs IH]; simpl; intros L. auto. apply in_flat_map. exists (val x w). split.
  apply in_seq. specialize (L w (or_introl eq_refl)). lia. apply in_map. apply IH; auto.
Qed.
Lemma canon_self vs : NoDup vs -> forall x, In x (all_asg vs) -> canon vs x = x.
Proof.
  induction 1 as [|w vs NI ND IH]; simpl; intros x Ix. destruct Ix; [auto|contradiction].
  apply in_flat_map in Ix as (k & Ik & Ix). apply in_map_iff in Ix as (y & <- & Iy). simpl. rewrite same_refl. f_equal.
  rewrite <- (IH y Iy) at 2. unfold canon. apply map_ext_in. intros v Iv. simpl.
  destruct (same_instance v w) eqn:Q; auto. apply same_instance_spec in Q. subst. contradiction.
Qed.

Section Rebuild.
  Context {N : num} (OK : num_ok N).
  Variable k : kind.

  Lemma all_asg_perm vs vs' : Permutation vs vs' -> NoDup vs -> forall F : asg -> N,
    (forall x y, (forall v, In v vs -> val x v = val y v) -> F x = F y) ->
    (forall x, (forall v, In v vs -> val x v < vsize v) -> (n0 <= F x)%num) ->
    bigL k F (all_asg vs) = bigL k F (all_asg vs').
  Proof.
    induction 1 as [|v vs vs' P IH|v w vs|l1 l2 l3 P1 IH1 P2 IH2]; intros ND F E NN; auto.
    - inversion ND as [|? ? NI ND']; subst. simpl.
      assert (RG : forall l, NoDup l -> (forall u, In u l <-> In u vs) -> forall j x, In j (seq 0 (vsize v)) -> In x (map (cons (v, j)) (all_asg l)) -> (n0 <= F x)%num).
      { intros l NDl El j x Ij Ix. apply in_seq in Ij. apply in_map_iff in Ix as (y & <- & Iy). apply NN. intros u Iu. simpl.
        destruct (same_instance u v) eqn:Q. apply same_instance_spec in Q; subst; lia.
        apply same_instance_false in Q. destruct Iu; [congruence|]. eapply asg_val_range; eauto. apply El; auto. }
      rewrite !(bigL_flat_map OK).
      + apply bigL_ext. intros j Ij. apply in_seq in Ij. rewrite !bigL_map. apply (IH ND' (fun x => F ((v, j) :: x))).
        * intros x y Q. apply E. intros u Iu. simpl. destruct (same_instance u v) eqn:Z; auto. apply Q. apply same_instance_false in Z. destruct Iu; congruence.
        * intros x Q. apply NN. intros u Iu. simpl. destruct (same_instance u v) eqn:Z. apply same_instance_spec in Z; subst; lia.
          apply Q. apply same_instance_false in Z. destruct Iu; congruence.
      + apply (RG vs'). eapply Permutation_NoDup; eauto. intros u. split; apply Permutation_in; auto using Permutation_sym.
      + apply (RG vs); auto. tauto.
    - simpl. inversion ND as [|? ? NI ND']; subst. inversion ND' as [|? ? NI' ND'']; subst.
      assert (NE : w <> v) by (intros ->; apply NI; simpl; auto).
      assert (RG : forall (x y : asg) i j, (x = (w, j) :: (v, i) :: y \/ x = (v, i) :: (w, j) :: y) -> i < vsize v -> j < vsize w -> In y (all_asg vs) -> (n0 <= F x)%num).
      { intros x y i j Ex Li Lj Iy. apply NN. intros u Iu.
        destruct Ex as [-> | ->]; simpl; destruct (same_instance u w) eqn:Z1; destruct (same_instance u v) eqn:Z2;
          repeat match goal with Z : same_instance _ _ = true |- _ => apply same_instance_spec in Z end; subst; auto; try congruence;
          apply same_instance_false in Z1, Z2; (destruct Iu as [Iu|[Iu|Iu]]; [congruence|congruence|]); eapply asg_val_range; eauto. }
      assert (FLAT : forall (a b : var), (a = w /\ b = v) \/ (a = v /\ b = w) ->
        bigL k F (flat_map (fun i => map (cons (a, i)) (flat_map (fun j => map (cons (b, j)) (all_asg vs)) (seq 0 (vsize b)))) (seq 0 (vsize a))) =
        bigL k (fun i => bigL k (fun j => bigL k (fun y => F ((a, i) :: (b, j) :: y)) (all_asg vs)) (seq 0 (vsize b))) (seq 0 (vsize a))).
      { intros a b AB. rewrite (bigL_flat_map OK).
        - apply bigL_ext. intros i Ii. apply in_seq in Ii. rewrite bigL_map. rewrite (bigL_flat_map OK).
          + apply bigL_ext. intros j Ij. rewrite bigL_map. auto.
          + intros j x Ij Ix. apply in_seq in Ij. apply in_map_iff in Ix as (y & <- & Iy).
            destruct AB as [[-> ->]|[-> ->]]; [apply (RG _ y j i)|apply (RG _ y i j)]; auto; lia.
        - intros i x Ii Ix. apply in_seq in Ii. apply in_map_iff in Ix as (x' & <- & Ix). apply in_flat_map in Ix as (j & Ij & Ix). apply in_seq in Ij.
          apply in_map_iff in Ix as (y & <- & Iy).
          destruct AB as [[-> ->]|[-> ->]]; [apply (RG _ y j i)|apply (RG _ y i j)]; auto; lia. }
      rewrite (FLAT w v), (FLAT v w) by auto. rewrite (bigL_swap OK). apply bigL_ext. intros i _. apply bigL_ext. intros j _. apply bigL_ext. intros y _.
      apply E. intros u _. simpl. destruct (same_instance u w) eqn:Z1; destruct (same_instance u v) eqn:Z2; auto.
      apply same_instance_spec in Z1, Z2. congruence.
    - rewrite IH1; auto. apply IH2.
      + eapply Permutation_NoDup; eauto.
      + intros x y Q. apply E. intros u Iu. apply Q. eapply Permutation_in; eauto.
      + intros x Q. apply NN. intros u Iu. apply Q. eapply Permutation_in; eauto.
  Qed.

  Variable H : nat -> func N.
  Notation W := (weight_swapped H).

  Section Two.
    Variables A A' : spec.
    Hypothesis SM : same_model A A'.
    Hypothesis ND : NoDup (sp_vars A).
    (** the variables of the factors are variables of the model *)
    Hypothesis FV : forall f v, In f (sp_facs A) -> In v (f_vars (H f)) -> In v (sp_vars A).

    Lemma same_swapped f x : swapped H A' f x = swapped H A f x.
    Proof. destruct SM as (_ & _ & E). unfold swapped, is_obs. destruct (f_vars (H f)) as [|a [|b [|]]]; auto. rewrite <- !E. auto. Qed.
    Lemma same_weight_swapped x : W A' x = W A x.
    Proof.
      destruct SM as (_ & P & _). unfold weight_swapped. rewrite (prodL_perm OK _ _ _ (Permutation_sym P)).
      apply prodL_ext. intros f _. apply same_swapped.
    Qed.
    Lemma same_weight x : weight H A' x = weight H A x.
    Proof. destruct SM as (_ & P & _). unfold weight. apply (prodL_perm OK). apply Permutation_sym; auto. Qed.
    Lemma same_agrees x : agrees A' x = agrees A x.
    Proof.
      destruct SM as (P & _ & E). unfold agrees. apply eq_true_iff_eq. rewrite !forallb_forall. split; intros Q v Iv.
      - rewrite E. apply Q. eapply Permutation_in; eauto.
      - rewrite <- E. apply Q. eapply Permutation_in; [apply Permutation_sym|]; eauto.
    Qed.
    Lemma weight_swapped_val x y : (forall v, In v (sp_vars A) -> val x v = val y v) -> W A x = W A y.
    Proof.
      intros Q. unfold weight_swapped. apply prodL_ext. intros f If. unfold swapped. pose proof (FV f) as FVf.
      destruct (f_vars (H f)) as [|a [|b [|]]]; auto.
      - simpl. rewrite Q; auto. apply FVf; simpl; auto.
      - rewrite !Q by (apply FVf; simpl; auto). auto.
      - f_equal. apply map_ext_in. intros u Iu. apply Q. apply FVf; auto.
    Qed.
    Lemma agrees_val x y : (forall v, In v (sp_vars A) -> val x v = val y v) -> agrees A x = agrees A y.
    Proof.
      intros Q. unfold agrees. apply eq_true_iff_eq. rewrite !forallb_forall. split; intros R v Iv; specialize (R v Iv); rewrite Q in * by auto || rewrite <- Q in * by auto; auto.
    Qed.

    Lemma same_total v j : (forall x, In x (all_asg (sp_vars A)) -> (n0 <= W A x)%num) -> In v (sp_vars A) ->
      total A' k (W A') (takes v j) = total A k (W A) (takes v j).
    Proof.
      intros NN Iv. unfold total. destruct SM as (P & _ & _).
      rewrite (all_asg_perm _ _ P ND).
      - apply bigL_ext. intros x _. rewrite same_agrees, same_weight_swapped. auto.
      - intros x y Q. rewrite (agrees_val x y Q), (weight_swapped_val x y Q). unfold takes. rewrite Q; auto.
      - intros x Q. destruct (_ && _); [|apply (nle_refl OK)].
        rewrite (weight_swapped_val x (canon (sp_vars A) x)). apply NN. apply canon_In; auto. intros u Iu. symmetry. apply canon_val; auto.
    Qed.
    Lemma same_hidden v : hidden A' v <-> hidden A v.
    Proof.
      destruct SM as (P & _ & E). unfold hidden. rewrite <- E. split; intros [I Z]; split; auto.
      eapply Permutation_in; [apply Permutation_sym|]; eauto. eapply Permutation_in; eauto.
    Qed.
    Lemma same_joins f v w : joins H A' f v w <-> joins H A f v w.
    Proof. destruct SM as (_ & P & _). unfold joins. split; intros [I Z]; split; auto. eapply Permutation_in; [apply Permutation_sym|]; eauto. eapply Permutation_in; eauto. Qed.
    Lemma same_edge v w : hidden_edge H A' v w <-> hidden_edge H A v w.
    Proof.
      unfold hidden_edge. rewrite !same_hidden. split; intros (Hv & Hw & f & J); (split; [auto|split; [auto|]]); exists f; apply same_joins; auto.
    Qed.
    Lemma same_linked v w : hidden_linked H A' v w <-> hidden_linked H A v w.
    Proof.
      unfold hidden_linked. split; intros R; induction R; try (econstructor; fail).
      - apply rt_step. apply same_edge; auto.
      - eapply rt_trans; eauto.
      - apply rt_step. apply same_edge; auto.
      - eapply rt_trans; eauto.
    Qed.
    Lemma same_tree v : tree_around H A' v <-> tree_around H A v.
    Proof.
      unfold tree_around, ring. split; intros T (c & (L & D & R) & Lk); apply T; exists c.
      - split; [split; [auto|split; auto]|]. intros i x y Q1 Q2. apply same_edge. eapply R; eauto. intros w Iw. apply same_linked. auto.
      - split; [split; [auto|split; auto]|]. intros i x y Q1 Q2. apply same_edge. eapply R; eauto. intros w Iw. apply same_linked. auto.
    Qed.
    Lemma same_balanced : balanced H A -> balanced H A'.
    Proof. intros B v w E. apply B. apply same_edge. auto. Qed.
    Lemma same_floor : above_floor H A -> above_floor H A'.
    Proof.
      intros B f v w If E Hv Hw. apply B; try apply same_hidden; auto. destruct SM as (_ & P & _). eapply Permutation_in; [apply Permutation_sym|]; eauto.
    Qed.
    Lemma same_positive : positive (W A) A -> positive (W A') A'.
    Proof.
      intros (x & (I & Ag) & Pw). pose proof SM as (P & _ & _).
      assert (VX : forall v, In v (sp_vars A) -> val (canon (sp_vars A') x) v = val x v) by (intros v Iv; apply canon_val; eapply Permutation_in; eauto).
      exists (canon (sp_vars A') x). split; [split|].
      - apply canon_In. intros v Iv. eapply asg_val_range; eauto. eapply Permutation_in; [apply Permutation_sym|]; eauto.
      - rewrite same_agrees, (agrees_val _ x); auto.
      - rewrite same_weight_swapped, (weight_swapped_val _ x); auto.
    Qed.
  End Two.
End Rebuild.
