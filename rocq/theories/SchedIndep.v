(** The calls of the API do not depend on the order of execution of the tasks *)
From Coq Require Import String List Arith Bool Lia Permutation Relations.
From Verif Require Import Res Num Categoric Func FuncProofs GroupProofs FactorProofs FactorApi Special SpecialProofs
  Graph GraphLemmas Clusters Belief Query GraphInv EvidInv BeliefInv BPRun GraphSpec Hist BeliefHist Indep.
Import ListNotations.
Open Scope nat_scope.

Section SchedIndep.
  Context {N : num} (OK : num_ok N).
  Variable H : nat -> func N.
  Hypothesis HG : solids H.
  Notation gst := (gst (N:=N)).
  Implicit Types s : gst.
  Notation core := (core H).

  (** {1 The pool between the calls} *)
  Definition at_rest s : Prop := g_pool s = Some 1 \/ g_pool s = None.
  Definition orest {B} (o : out gst B) : Prop := match o with Ret _ s | Thr s => at_rest s | _ => True end.
  Lemma opool_rest {B} s (o : out gst B) : at_rest s -> opool s o -> orest o.
  Proof. unfold orest, at_rest. destruct o; simpl; auto; intros R Q; rewrite Q; auto. Qed.
  Lemma orest_bind {A B} (o : out gst A) (f : A -> gst -> out gst B) : orest o -> (forall a s, at_rest s -> orest (f a s)) -> orest (obind o f).
  Proof. destruct o; simpl; auto. Qed.
  Lemma orest_lift {B} s (r : res B) : at_rest s -> orest (lift r s).
  Proof. destruct r; simpl; auto. Qed.
  Lemma scoped_rest {A} n (body : gst -> out gst A) s : at_rest s -> orest (scoped_pool n body s).
  Proof.
    intros R. unfold scoped_pool, set_pool_size. destruct R as [-> | ->]; simpl; auto. destruct (n =? 1).
    - simpl. destruct (body s); simpl; auto; left; auto.
    - destruct (n =? 0); simpl. right; auto. destruct (body (set_pool s (Some n))); simpl; auto; left; auto.
  Qed.
  Lemma check_rest e k n s : at_rest s -> orest (check_propagation H e k n s).
  Proof. intros R. unfold check_propagation. destruct (would_need s k). apply scoped_rest; auto. simpl; auto. Qed.
  Lemma marginal_rest e k v n s : at_rest s -> orest (marginal_query H e k v n s).
  Proof. intros R. unfold marginal_query. apply orest_bind. apply check_rest; auto. intros _ s1 R1. destruct (locate s1 v) as [[a l]|]; simpl; auto. apply orest_lift; auto. Qed.
  Lemma map_rest e v n s : at_rest s -> orest (get_map H e v n s).
  Proof. intros R. unfold get_map. apply orest_bind. apply marginal_rest; auto. intros. apply orest_lift; auto. Qed.
  Lemma joint_rest e g n s : at_rest s -> orest (get_joint H e g n s).
  Proof. intros R. unfold get_joint. apply orest_bind. apply check_rest; auto. intros _ s1 R1. apply orest_bind. apply orest_lift; auto. intros locs s2 R2. apply orest_lift; auto. Qed.
  Lemma call_rest e op s : at_rest s -> orest (call H e op s).
  Proof.
    intros R.
    assert (OM : forall A (f : A -> answer) (o : out gst A), orest o -> orest (omap f o)).
    { intros A f o. unfold omap. destruct o; simpl; auto. }
    destruct op; simpl; auto; try apply OM.
    - apply (opool_rest s), add_pool; auto.
    - apply (opool_rest s), set_pool_same; auto.
    - unfold set_evidence_name. apply orest_bind. apply orest_lift; auto. intros v s1 R1. apply (opool_rest s1), set_pool_same; auto.
    - apply (opool_rest s), remove_pool; auto.
    - unfold remove_evidence_name. apply orest_bind. apply orest_lift; auto. intros w s1 R1. apply (opool_rest s1), remove_pool; auto.
    - apply (opool_rest s), removes_pool; auto.
    - unfold remove_evidences_names. apply orest_bind. apply orest_lift; auto. intros w s1 R1. apply (opool_rest s1), removes_pool; auto.
    - apply (opool_rest s), remove_all_pool; auto.
    - apply marginal_rest; auto.
    - unfold get_marginal_name. apply orest_bind. apply orest_lift; auto. intros. apply marginal_rest; auto.
    - apply map_rest; auto.
    - unfold get_map_name. apply orest_bind. apply orest_lift; auto. intros. apply map_rest; auto.
    - unfold get_hidden_map. apply orest_bind. apply check_rest; auto. intros _ s1 R1. apply orest_lift; auto.
    - apply joint_rest; auto.
    - unfold get_joint_names. apply orest_bind. apply orest_lift; auto. intros vs s1 R1. apply orest_bind. apply orest_lift; auto. intros. apply joint_rest; auto.
    - apply scoped_rest; auto.
  Qed.
  Theorem reach_rest G ops s : reach H G ops s -> at_rest s.
  Proof.
    induction 1 as [|ops s e op a s' R IH Gop E Q|ops s e op s' R IH Gop E Q]. left; auto.
    - pose proof (call_rest e op s IH) as X. rewrite Q in X. auto.
    - pose proof (call_rest e op s IH) as X. rewrite Q in X. auto.
  Qed.

  (** {1 The calls} *)
  Section Calls.
    Variable e : env.
    Hypothesis E : env_ok e.
    Variable f : nat -> list nat -> list nat.
    Hypothesis F : forall t l, Permutation (f t l) l.
    Notation e' := (with_sched e f).

    Section State.
      Variable s : gst.
      Hypothesis I : inv H s.
      Hypothesis R : at_rest s.
      Lemma rest_ne : g_pool s <> Some 0.
      Proof. destruct R as [-> | ->]; congruence. Qed.
      Lemma sim_check_s k n : sim (check_propagation H e k n s) (check_propagation H e' k n s).
      Proof. destruct I. apply sim_check; auto. apply rest_ne. apply geq_refl. Qed.
      Lemma sim_marginal k v n : sim (marginal_query H e k v n s) (marginal_query H e' k v n s).
      Proof.
        unfold marginal_query. apply sim_bind. apply sim_check_s. intros _ s1 s1' _ G. rewrite (geq_locate s1 s1' v G). destruct (locate s1 v) as [[a l]|]; [|exact Logic.I].
        apply sim_lift; auto. exact (geq_marginal_at e s1 s1' a l G).
      Qed.
      Lemma sim_map v n : sim (get_map H e v n s) (get_map H e' v n s).
      Proof. unfold get_map. apply sim_bind. apply sim_marginal. intros. apply sim_lift; auto. Qed.
      Lemma sim_hidden_map n : sim (get_hidden_map H e n s) (get_hidden_map H e' n s).
      Proof.
        unfold get_hidden_map. apply sim_bind. apply sim_check_s. intros _ s1 s1' _ G. apply sim_lift; auto.
        change (hidden_variables e' s1') with (hidden_variables e s1'). rewrite (geq_hidden e s1 s1' G). apply rmap_ext. intros v. rewrite (geq_find s1 s1' v G).
        destruct (find_node s1 v); auto. change (incoming e' s1' n0) with (incoming e s1' n0). rewrite (geq_incoming e s1 s1' n0 G). auto.
      Qed.
      Lemma rfold_ext {A B} (g h : A -> B -> res A) l : (forall a b, g a b = h a b) -> forall a, rfold g l a = rfold h l a.
      Proof. intros Q. induction l as [|x l IH]; simpl; auto. intros a. rewrite Q. destruct (h a x); simpl; auto. Qed.
      Lemma sim_joint g n : sim (get_joint H e g n s) (get_joint H e' g n s).
      Proof.
        unfold get_joint. apply sim_bind. apply sim_check_s. intros _ s1 s1' _ G. apply sim_bind.
        - apply sim_lift; auto. apply rmap_ext. intros v. rewrite (geq_locate s1 s1' v G). auto.
        - intros locs s2 s2' _ G2. apply sim_lift; auto.
          change (contrib_step e' s2' (map fst locs)) with (contrib_step e s2' (map fst locs)). change (e_ord e' (gsize s2')) with (e_ord e (gsize s2')).
          rewrite (geq_size s2 s2' G2).
          rewrite (rfold_ext (contrib_step e s2' (map fst locs)) (contrib_step e s2 (map fst locs)) locs (fun st al => geq_contrib e s2 s2' _ st al G2)).
          destruct (rfold (contrib_step e s2 (map fst locs)) locs ([], [])) as [[cs inds]| | | |]; auto. cbn [rbind].
          rewrite (rmap_ext (contrib_factor H s2' inds) (contrib_factor H s2 inds) _ (fun c => geq_contrib_factor H s2 s2' inds c G2)). auto.
      Qed.
      Lemma sim_prop_call k n : sim (scoped_pool n (propagate H e k) s) (scoped_pool n (propagate H e' k) s).
      Proof. destruct I. apply sim_scoped; auto. apply rest_ne. apply geq_refl. Qed.
    End State.

    Lemma sim_refl {A} (o : out gst A) : sim o o.
    Proof. destruct o; simpl; auto. eexists. split; eauto. apply geq_refl. Qed.
    Theorem sim_call op s : inv H s -> at_rest s -> sim (call H e op s) (call H e' op s).
    Proof.
      intros I R.
      assert (OM : forall A (g : A -> answer) (o o' : out gst A), sim o o' -> sim (omap g o) (omap g o')).
      { intros A g o o' S. unfold omap. apply sim_bind; auto. intros. apply sim_ret; auto. }
      assert (LB : forall A B (r : res A) (g h : A -> gst -> out gst B), (forall a, sim (g a s) (h a s)) -> sim (do (a, s) <- lift r s ;; g a s) (do (a, s) <- lift r s ;; h a s)).
      { intros A B r g h S. destruct r; simpl; auto. }
      destruct op; cbn [call]; try apply OM; try (apply sim_refl).
      - apply sim_marginal; auto.
      - apply LB. intros. apply sim_marginal; auto.
      - apply sim_map; auto.
      - apply LB. intros. apply sim_map; auto.
      - apply sim_hidden_map; auto.
      - apply sim_joint; auto.
      - unfold get_joint_names. apply LB. intros vs. apply (LB _ _ (group_ctor vs)). intros g. apply sim_joint; auto.
      - apply sim_prop_call; auto.
    Qed.
  End Calls.
End SchedIndep.
