(** Executions of a job whose actions commute across the threads *)
From Coq Require Import List Arith Bool Lia Permutation.
From Verif Require Import Pool PoolProofs.
Import ListNotations.
Open Scope nat_scope.

Section Comm.
  Variable M : Type.
  (** equivalence of memories *)
  Variable eqM : M -> M -> Prop.
  Hypothesis eqM_refl : forall m, eqM m m.
  Hypothesis eqM_sym : forall a b, eqM a b -> eqM b a.
  Hypothesis eqM_trans : forall a b c, eqM a b -> eqM b c -> eqM a c.
  Variable ap : entry -> M -> M.
  Variable valid : entry -> Prop.
  Hypothesis ap_proper : forall e m m', valid e -> eqM m m' -> eqM (ap e m) (ap e m').
  Hypothesis ap_comm : forall e f m, valid e -> valid f -> fst e <> fst f -> eqM (ap e (ap f m)) (ap f (ap e m)).

  Definition runl (l : list entry) (m : M) : M := fold_left (fun m e => ap e m) l m.

  Lemma runl_proper l : Forall valid l -> forall m m', eqM m m' -> eqM (runl l m) (runl l m').
  Proof. induction 1 as [|e l V F IH]; intros m m' E; simpl; auto. Qed.
  Lemma runl_front e a b : Forall valid (a ++ e :: b) -> (forall f, In f a -> fst f <> fst e) ->
    forall m, eqM (runl (a ++ e :: b) m) (runl (e :: a ++ b) m).
  Proof.
    induction a as [|f a IH]; intros V D m; simpl; auto. inversion V as [|? ? Vf V']; subst.
    eapply eqM_trans. apply (IH V' ltac:(intros; apply D; simpl; auto)). simpl. apply runl_proper.
    - apply Forall_app in V' as [A B]. inversion B; subst. apply Forall_app; auto.
    - apply ap_comm; auto. apply Forall_app in V' as [_ B]. inversion B; auto. intros E. apply (D f); simpl; auto.
  Qed.
  Lemma proj_split t l p r : proj t l = p :: r -> exists a b, l = a ++ (t, p) :: b /\ (forall f, In f a -> fst f <> t) /\ proj t b = r.
  Proof.
    unfold proj. induction l as [|[u q] l IH]; simpl; [discriminate|]. destruct (Nat.eqb_spec u t) as [->|N]; simpl.
    - intros [= -> <-]. exists [], l. auto.
    - intros E. destruct (IH E) as (a & b & -> & D & R). exists ((u, q) :: a), b. split; auto. split; auto. intros f [<-|I]; auto.
  Qed.
  Lemma proj_app t a b : proj t (a ++ b) = proj t a ++ proj t b.
  Proof. unfold proj. rewrite filter_app, map_app. auto. Qed.
  Lemma proj_none t a : (forall f, In f a -> fst f <> t) -> proj t a = [].
  Proof.
    unfold proj. induction a as [|f a IH]; simpl; intros D; auto. destruct (Nat.eqb_spec (fst f) t). exfalso; eapply D; eauto. auto.
  Qed.
  (** two executions with the same actions per thread have the same effect *)
  Lemma same_effect l1 : forall l2, Forall valid l1 -> Forall valid l2 -> (forall t, proj t l1 = proj t l2) ->
    forall m, eqM (runl l1 m) (runl l2 m).
  Proof.
    induction l1 as [|[t p] r IH]; intros l2 V1 V2 E m.
    - destruct l2 as [|[t p] l2]; simpl; auto. specialize (E t). unfold proj in E. simpl in E. rewrite Nat.eqb_refl in E. discriminate.
    - assert (Et : proj t l2 = p :: proj t r). { rewrite <- E. unfold proj. simpl. rewrite Nat.eqb_refl. auto. }
      destruct (proj_split t l2 p _ Et) as (a & b & -> & D & R). inversion V1; subst.
      assert (Vab : Forall valid (a ++ b)). { apply Forall_app in V2 as [A B]. inversion B; subst. apply Forall_app; auto. }
      eapply eqM_trans with (b := runl ((t, p) :: a ++ b) m).
      + simpl. apply IH; auto. intros u. specialize (E u). rewrite proj_app in *. unfold proj at 1 in E. simpl in E.
        change (proj u ((t, p) :: b)) with (map snd (filter (fun e => fst e =? u) ((t, p) :: b))) in E. simpl in E.
        destruct (Nat.eqb_spec t u) as [->|N]; simpl in E.
        * rewrite (proj_none u a) in * by auto. simpl in *. injection E as E. exact E.
        * exact E.
      + apply eqM_sym, runl_front; auto.
  Qed.
End Comm.

(** the execution of a job in the order of the list, each task by its thread *)
Section Sequential.
  Variable M : Type.
  Variable n : nat.
  Variable jobs : list (tasks M).
  Hypothesis Hn : 1 <= n.
  Definition in_order (j : nat) : list entry :=
    flat_map (fun k => map (pair (k mod n)) (task_entries M jobs j k)) (seq 0 (length (job M jobs j))).
  Lemma proj_task t u l : proj t (map (pair u) l) = if u =? t then l else [].
  Proof.
    unfold proj. destruct (u =? t) eqn:E; induction l as [|p l IH]; simpl; auto; rewrite E; simpl; auto. f_equal; auto.
  Qed.
  Lemma in_order_interleaving j : interleaving M n jobs j (in_order j).
  Proof.
    split.
    - intros e I. apply in_flat_map in I as (k & _ & I). apply in_map_iff in I as (p & <- & _). simpl. apply Nat.mod_upper_bound. lia.
    - intros t Lt. unfold in_order, thread_prog. generalize (seq 0 (length (job M jobs j))). intros l. induction l as [|k l IH]; auto.
      simpl. rewrite proj_app, IH, proj_task. destruct (k mod n =? t); auto.
  Qed.
  Lemma interleaving_valid j l e : interleaving M n jobs j l -> In e l ->
    fst e < n /\ fst (snd e) mod n = fst e /\ fst (snd e) < length (job M jobs j) /\ snd (snd e) < length (acts M jobs j (fst (snd e))).
  Proof.
    intros [A B] I. pose proof (A e I) as L. split; auto. assert (P : In (snd e) (proj (fst e) l)).
    { unfold proj. apply in_map. apply filter_In. split; auto. apply Nat.eqb_refl. }
    rewrite (B _ L) in P. unfold thread_prog in P. apply in_flat_map in P as (k & K & P). apply filter_In in K as [K1 K2]. apply in_seq in K1. apply Nat.eqb_eq in K2.
    unfold task_entries in P. apply in_map_iff in P as (i & Ei & Ii). apply in_seq in Ii. rewrite <- Ei. simpl. split; auto. lia.
  Qed.
  (** exactly once *)
  Lemma interleaving_once j l k i : interleaving M n jobs j l -> k < length (job M jobs j) -> i < length (acts M jobs j k) ->
    exists a b, l = a ++ (k mod n, (k, i)) :: b /\ forall e, In e (a ++ b) -> snd e <> (k, i).
  Proof.
    intros I Lk Li. pose proof I as [A B]. set (t := k mod n). assert (Lt : t < n) by (apply Nat.mod_upper_bound; lia).
    assert (ND : forall t, t < n -> NoDup (proj t l)).
    { intros u Lu. rewrite (B u Lu). unfold thread_prog. assert (ND : NoDup (filter (fun k => k mod n =? u) (seq 0 (length (job M jobs j))))) by (apply NoDup_filter, seq_NoDup).
      revert ND. generalize (filter (fun k => k mod n =? u) (seq 0 (length (job M jobs j)))). intros ks. induction 1 as [|x ks N D IH]; simpl; [constructor|].
      assert (G : forall a b : list (nat * nat), NoDup a -> NoDup b -> (forall p, In p a -> ~ In p b) -> NoDup (a ++ b)).
      { induction a as [|p a IHa]; simpl; intros b Na Nb Dis; auto. inversion Na; subst. constructor. { rewrite in_app_iff. intros [Q|Q]; [contradiction|]. apply (Dis p); simpl; auto. } apply IHa; auto. }
      apply G; auto.
      - unfold task_entries. apply FinFun.Injective_map_NoDup. intros a b [= E]; auto. apply seq_NoDup.
      - intros p Ip Iq. unfold task_entries in Ip. apply in_map_iff in Ip as (a & <- & _). apply in_flat_map in Iq as (y & Iy & Iq). unfold task_entries in Iq. apply in_map_iff in Iq as (b & E & _). injection E as -> _. contradiction. }
    assert (P : In (k, i) (proj t l)).
    { rewrite (B t Lt). unfold thread_prog. apply in_flat_map. exists k. split. apply filter_In. split. apply in_seq; lia. apply Nat.eqb_refl. unfold task_entries. apply in_map, in_seq. lia. }
    unfold proj in P. apply in_map_iff in P as ([u p] & E & Q). simpl in E. subst p. apply filter_In in Q as [Q1 Q2]. simpl in Q2. apply Nat.eqb_eq in Q2. subst u.
    apply in_split in Q1 as (a & b & ->). exists a, b. split; auto. intros e Ie Ee.
    assert (F : fst e = t). { assert (Il : In e (a ++ (t, (k, i)) :: b)) by (apply in_app_or in Ie; apply in_or_app; simpl; tauto).
      destruct (interleaving_valid j _ e I Il) as (_ & X & _). rewrite Ee in X. simpl in X. auto. }
    specialize (ND t Lt). rewrite proj_app in ND. change ((t, (k, i)) :: b) with ([(t, (k, i))] ++ b) in ND. rewrite proj_app in ND.
    assert (Z : proj t [(t, (k, i))] = [(k, i)]) by (unfold proj; simpl; rewrite Nat.eqb_refl; auto). rewrite Z in ND.
    apply NoDup_remove_2 in ND. apply ND. apply in_app_or in Ie as [Ie|Ie]; apply in_or_app; [left|right]; unfold proj; rewrite <- Ee; apply in_map, filter_In; split; auto; apply Nat.eqb_eq; auto.
  Qed.
End Sequential.
