(** A propagation from a state whose caches (merged factors, topologies) are
    already filled gives the messages of a propagation from a state where they
    are not: the messages found at the start do not matter. *)
From Coq Require Import String List Arith Bool Lia Permutation Relations.
From Verif Require Import Res Num Categoric Func FuncProofs GroupProofs FactorProofs FactorApi Special SpecialProofs
  Graph GraphLemmas Clusters Belief Query GraphInv EvidInv BeliefInv BPRun GraphSpec Hist BeliefHist Indep SchedIndep.
Import ListNotations.
Open Scope nat_scope.

Lemma nth_error_ext {T} (l l' : list T) : (forall i, nth_error l i = nth_error l' i) -> l = l'.
Proof.
  revert l'. induction l as [|x l IH]; intros [|y l'] Q; auto; try (specialize (Q 0); discriminate Q).
  pose proof (Q 0) as Q0. simpl in Q0. injection Q0 as ->. f_equal. apply IH. intros i. apply (Q (S i)).
Qed.

Section Warm.
  Context {N : num} (OK : num_ok N).
  Variable H : nat -> func N.
  Notation gst := (gst (N:=N)).
  Implicit Types s : gst.
  Notation core := (core H).
  Notation tree_task k := (fun t s => do (_, s) <- update_message H k t s ;; Ret tt s).

  (** {1 States with the same messages} *)
  Record like (P : nat -> Prop) s s' : Prop := {
    lk_vars : g_vars s' = g_vars s;
    lk_next : g_next s' = g_next s;
    lk_all : g_all s' = g_all s;
    lk_iters : g_iters s' = g_iters s;
    lk_ev : forall a, g_ev s' a = g_ev s a;
    lk_act : forall a b, act s' a b = act s a b;
    lk_dis : forall a b, dis s' a b = dis s a b;
    lk_un : forall a, nd_un (g_node s' a) = nd_un (g_node s a);
    lk_merged : forall a, P a -> nd_merged (g_node s' a) = nd_merged (g_node s a)
  }.
  Definition lsim {A} P (o o' : out gst A) : Prop :=
    match o with Ret a s => exists s', o' = Ret a s' /\ like P s s' | _ => True end.
  Lemma lsim_ret {A} P (a : A) s s' : like P s s' -> lsim P (Ret a s) (Ret a s').
  Proof. intros E. exists s'. auto. Qed.
  Lemma lsim_bind {A B} P (o o' : out gst A) (f f' : A -> gst -> out gst B) : lsim P o o' ->
    (forall a s s', o = Ret a s -> like P s s' -> lsim P (f a s) (f' a s')) -> lsim P (obind o f) (obind o' f').
  Proof. destruct o; simpl; auto. intros (s' & -> & E) F. simpl. apply F; auto. Qed.
  Lemma lsim_lift {A} P (r r' : res A) s s' : r' = r -> like P s s' -> lsim P (lift r s) (lift r' s').
  Proof. intros -> E. destruct r; simpl; auto. eexists; eauto. Qed.
  Lemma lsim_fold {A} P (f f' : A -> gst -> out gst unit) l : (forall x s s', In x l -> like P s s' -> lsim P (f x s) (f' x s')) ->
    forall s s', like P s s' -> lsim P (ofold f l s) (ofold f' l s').
  Proof.
    induction l as [|x l IH]; intros F s s' E; simpl. apply lsim_ret; auto. apply lsim_bind. apply F; simpl; auto.
    intros _ s1 s1' _ E1. apply IH; auto. intros; apply F; simpl; auto.
  Qed.

  Section Like.
    Variable P : nat -> Prop.
    Lemma like_size s s' : like P s s' -> gsize s' = gsize s.
    Proof. intros E. unfold gsize. rewrite (lk_vars _ _ _ E). auto. Qed.
    Lemma like_keys_act s s' a : like P s s' -> keys (gsize s') (nd_act (g_node s' a)) = keys (gsize s) (nd_act (g_node s a)).
    Proof. intros E. rewrite (like_size _ _ E). apply keys_ext. intros k _. pose proof (lk_act _ _ _ E a k) as Q. unfold act in Q. rewrite Q. auto. Qed.
    Lemma like_node_var s s' a : like P s s' -> node_var s' a = node_var s a.
    Proof. intros E. unfold node_var. rewrite (lk_vars _ _ _ E). auto. Qed.
    Lemma like_can s s' a l : like P s s' -> can_update s' a l = can_update s a l.
    Proof. intros E. induction l as [|[k u] l IH]; simpl; auto. unfold deref. rewrite (lk_act _ _ _ E), IH. auto. Qed.
    Lemma like_select s s' l : like P s s' -> select s' l = select s l.
    Proof. intros E. induction l as [|t l IH]; simpl; auto. rewrite (like_can _ _ _ _ E), IH. auto. Qed.
    Lemma lsim_set_act_msg s s' a b m : like P s s' -> lsim P (set_act_msg s a b m) (set_act_msg s' a b m).
    Proof.
      intros E. unfold set_act_msg. rewrite (lk_act _ _ _ E). destruct (act s a b) as [c|] eqn:Q; simpl; auto. eexists. split; [reflexivity|].
      constructor; try apply E; intros x; unfold act, dis; simpl; unfold fupd; destruct (Nat.eqb_spec x a) as [->|]; simpl; auto; try apply E.
      intros y. unfold fupd. destruct (y =? b); auto. apply (lk_act _ _ _ E).
    Qed.
    Lemma lsim_update k t s s' : P (t_snd t) -> like P s s' -> lsim P (update_message H k t s) (update_message H k t s').
    Proof.
      intros Pt E. destruct (update_message H k t s) as [o s1| | | |] eqn:Q; simpl; auto. apply update_message_ret in Q as (x & Q1 & Q2).
      assert (S : lsim P (upd_write t x s) (upd_write t x s')).
      { destruct x as [[m v]|]; simpl. apply lsim_bind. apply lsim_set_act_msg; auto. intros; apply lsim_ret; auto. eexists; eauto. }
      rewrite Q2 in S. destruct S as (s2 & S & E2). exists s2. split; auto. apply update_message_ret. exists x.
      rewrite (upd_val_ext H k t s s'); auto; intros; apply E; auto.
    Qed.
    Lemma lsim_tasks k l s s' : (forall t, In t l -> P (t_snd t)) -> like P s s' -> lsim P (ofold (tree_task k) l s) (ofold (tree_task k) l s').
    Proof.
      intros D. apply lsim_fold. intros t s1 s1' It E. apply lsim_bind. apply lsim_update; auto. intros; apply lsim_ret; auto.
    Qed.
    Lemma lsim_mp_loop e pool k (E : env_ok e) n : forall l s s', (forall t, In t l -> P (t_snd t)) -> like P s s' -> lsim P (mp_loop H n e pool k l s) (mp_loop H n e pool k l s').
    Proof.
      induction n as [|n IH]; intros [|t l] s s' D G; cbn [mp_loop]; try (apply lsim_ret; auto); try exact I.
      rewrite (like_select s s' _ G). destruct (select s (t :: l)) as [[ready wait]| | | |] eqn:Es; cbn [lift obind]; try exact I.
      destruct (select_facts _ _ _ _ Es) as [Pm _]. destruct ready as [|r0 r]; [apply lsim_ret; auto|]. apply lsim_bind.
      - apply lsim_tasks; auto. intros u Iu. apply D. eapply Permutation_in; [exact Pm|]. apply in_or_app. left. eapply Permutation_in; [|exact Iu]. apply schedule_perm; auto.
      - intros _ s1 s1' _ G1. apply IH; auto. intros u Iu. apply D. eapply Permutation_in; [exact Pm|]. apply in_or_app; auto.
    Qed.
    Lemma lsim_loopy_tasks k l : (forall t, In t l -> P (t_snd t)) -> forall v s s', like P s s' -> lsim P (loopy_tasks H k l v s) (loopy_tasks H k l v s').
    Proof.
      induction l as [|t l IH]; intros D v s s' G; cbn [loopy_tasks]. apply lsim_ret; auto. apply lsim_bind. apply lsim_update; simpl in D; auto.
      intros [x|] s1 s1' _ G1; [|exact I]. apply IH; auto. intros; apply D; simpl; auto.
    Qed.
    Lemma lsim_sweep e pool k bs (E : env_ok e) : (forall b t, In b bs -> In t b -> P (t_snd t)) -> forall v s s', like P s s' ->
      lsim P (loopy_sweep H e pool k bs v s) (loopy_sweep H e pool k bs v s').
    Proof.
      induction bs as [|b bs IH]; intros D v s s' G; cbn [loopy_sweep]. apply lsim_ret; auto. apply lsim_bind.
      - apply lsim_loopy_tasks; auto. intros u Iu. apply (D b); simpl; auto. eapply Permutation_in; [|exact Iu]. apply schedule_perm; auto.
      - intros v1 s1 s1' _ G1. apply IH; auto. intros b' u Ib. apply D; simpl; auto.
    Qed.
    Lemma lsim_iter e pool k bs (E : env_ok e) : (forall b t, In b bs -> In t b -> P (t_snd t)) -> forall n s s', like P s s' ->
      lsim P (loopy_iter H n e pool k bs s) (loopy_iter H n e pool k bs s').
    Proof.
      intros D. induction n as [|n IH]; intros s s' G; cbn [loopy_iter]. apply lsim_ret; auto. apply lsim_bind. apply lsim_sweep; auto.
      intros v1 s1 s1' _ G1. destruct (below_tolerance v1); auto. apply lsim_ret; auto.
    Qed.
    Lemma lsim_set_ones e cl s s' : like P s s' -> lsim P (set_ones e cl s) (set_ones e cl s').
    Proof.
      intros E. unfold set_ones. rewrite (like_size _ _ E). apply lsim_fold; auto. intros a s2 s2' _ E2. apply lsim_bind. apply lsim_lift; auto. apply like_node_var; auto.
      intros v s1 s1' _ E1. rewrite (like_keys_act _ _ a E1). apply lsim_fold; auto. intros b s3 s3' _ E3. apply lsim_set_act_msg; auto.
    Qed.
    Lemma lsim_message_passing e pool k i cl s s' : env_ok e -> get_cl s i = Ok cl -> get_cl s' i = Ok cl ->
      (forall ts t, cl_topo cl = Some ts -> In t ts -> P (t_snd t)) -> like P s s' ->
      lsim P (message_passing H e pool k i s) (message_passing H e pool k i s').
    Proof.
      intros E C C' D G. unfold message_passing. rewrite C, C'. cbn [lift obind]. destruct (cl_topo cl) as [ts|] eqn:T; [|exact I]. apply lsim_mp_loop; eauto.
    Qed.
    Lemma lsim_loopy e pool k i cl s s' : env_ok e -> get_cl s i = Ok cl -> get_cl s' i = Ok cl ->
      (forall ts t, cl_topo cl = Some ts -> In t ts -> P (t_snd t)) -> like P s s' ->
      lsim P (loopy_propagate H e pool k i s) (loopy_propagate H e pool k i s').
    Proof.
      intros E C C' D G. unfold loopy_propagate. rewrite C, C'. cbn [lift obind]. apply lsim_bind. apply lsim_set_ones; auto. intros _ s1 s1' _ G1.
      destruct (cl_topo cl) as [ts|] eqn:T; [|exact I]. destruct (loopy_order_ok pool ts) as (bs & -> & Pm). cbn [lift obind].
      rewrite (lk_iters _ _ _ G1). apply lsim_iter; auto. intros b u Ib Iu. eapply D; eauto. eapply Permutation_in; [exact Pm|]. apply in_concat. eauto.
    Qed.
  End Like.

  (** {1 What the messages leave} *)
  Definition frame s s' : Prop := mframe s s' /\ forall a, nd_merged (g_node s' a) = nd_merged (g_node s a).
  Lemma frame_refl s : frame s s.
  Proof. split; auto. apply mframe_refl. Qed.
  Lemma frame_trans s1 s2 s3 : frame s1 s2 -> frame s2 s3 -> frame s1 s3.
  Proof. intros [A B] [A' B']. split. eapply mframe_trans; eauto. intros a. rewrite B'; auto. Qed.
  Definition ofr {A} s (o : out gst A) : Prop := match o with Ret _ s' => frame s s' | _ => True end.
  Lemma ofr_bind {A B} s (o : out gst A) (f : A -> gst -> out gst B) : ofr s o -> (forall a s', o = Ret a s' -> ofr s' (f a s')) -> ofr s (obind o f).
  Proof.
    destruct o as [a s'| | | |]; simpl; auto. intros F G. specialize (G a s' eq_refl). unfold ofr in *. destruct (f a s'); auto. eapply frame_trans; eauto.
  Qed.
  Lemma ofr_ret {A} s (a : A) : ofr s (Ret a s).
  Proof. apply frame_refl. Qed.
  Lemma ofr_lift {A} s (r : res A) : ofr s (lift r s).
  Proof. destruct r; simpl; auto. apply frame_refl. Qed.
  Lemma ofr_fold {A} (f : A -> gst -> out gst unit) l : (forall x s, ofr s (f x s)) -> forall s, ofr s (ofold f l s).
  Proof. intros F. induction l as [|x l IH]; intros s; simpl. apply frame_refl. apply ofr_bind; auto. Qed.
  Lemma ofr_set s a b m : ofr s (set_act_msg s a b m).
  Proof.
    destruct (act s a b) as [c|] eqn:Q; [|unfold set_act_msg; rewrite Q; simpl; auto].
    destruct (set_act_msg_spec s a b c m Q) as (s1 & E1 & F & M & _). rewrite E1. split; auto.
  Qed.
  Lemma ofr_update k t s : ofr s (update_message H k t s).
  Proof.
    destruct (update_message H k t s) as [o s1| | | |] eqn:Q; simpl; auto. apply update_message_ret in Q as (x & _ & Q). apply upd_write_frame in Q as (F & M & _). split; auto.
  Qed.
  Lemma ofr_mp_loop e pool k n : forall l s, ofr s (mp_loop H n e pool k l s).
  Proof.
    induction n as [|n IH]; intros [|t l] s; cbn [mp_loop]; try apply frame_refl; try exact I. apply ofr_bind. apply ofr_lift.
    intros [ready wait] s1 _. destruct ready as [|r0 r]. apply frame_refl. apply ofr_bind; [|auto].
    apply ofr_fold. intros x s2. apply ofr_bind. apply ofr_update. intros. apply frame_refl.
  Qed.
  Lemma ofr_message_passing e pool k i s : ofr s (message_passing H e pool k i s).
  Proof. unfold message_passing. apply ofr_bind. apply ofr_lift. intros cl s1 _. destruct (cl_topo cl); [apply ofr_mp_loop|exact I]. Qed.
  Lemma ofr_tasks k l : forall v s, ofr s (loopy_tasks H k l v s).
  Proof. induction l as [|t l IH]; intros v s; cbn [loopy_tasks]. apply frame_refl. apply ofr_bind. apply ofr_update. intros [x|] s1 _; [auto|exact I]. Qed.
  Lemma ofr_sweep e pool k bs : forall v s, ofr s (loopy_sweep H e pool k bs v s).
  Proof. induction bs as [|b bs IH]; intros v s; cbn [loopy_sweep]. apply frame_refl. apply ofr_bind. apply ofr_tasks. auto. Qed.
  Lemma ofr_iter e pool k bs n : forall s, ofr s (loopy_iter H n e pool k bs s).
  Proof. induction n as [|n IH]; intros s; cbn [loopy_iter]. apply frame_refl. apply ofr_bind. apply ofr_sweep. intros v s1 _. destruct (below_tolerance v); auto. apply frame_refl. Qed.
  Lemma ofr_loopy e pool k i s : ofr s (loopy_propagate H e pool k i s).
  Proof.
    unfold loopy_propagate. apply ofr_bind. apply ofr_lift. intros cl s1 _. apply ofr_bind.
    - unfold set_ones. apply ofr_fold. intros a s2. apply ofr_bind. apply ofr_lift. intros v s3 _. apply ofr_fold. intros; apply ofr_set.
    - intros _ s2 _. destruct (cl_topo cl); [|exact I]. apply ofr_bind. apply ofr_lift. intros; apply ofr_iter.
  Qed.
  Lemma ofr_reset e s : ofr s (reset_messages e s).
  Proof. unfold reset_messages. apply ofr_fold. intros cl s1. apply ofr_fold. intros a s2. apply ofr_fold. intros; apply ofr_set. Qed.

  (** {1 What the preparation of a cluster computes} *)
  Section Prep.
    Variable e : env.
    Hypothesis E : env_ok e.

    Fixpoint topo_list s (nodes : list nat) : res (list topo) :=
      match nodes with
      | [] => Ok []
      | a :: r => let* ts := sender_topo e s a in let* us := topo_list s r in Ok (ts ++ us)
      end.
    Lemma keeps_sender s s' a : keeps H s s' -> sender_topo e s' a = sender_topo e s a.
    Proof.
      intros K.
      assert (AK : forall x y, match act s' x y with Some c => Some (c_uid c) | None => None end = match act s x y with Some c => Some (c_uid c) | None => None end).
      { intros x y. pose proof (kp_act _ _ _ K x y) as Q. destruct (act s' x y) as [c|], (act s x y) as [c'|]; simpl in Q; try discriminate; auto. unfold c_key in Q. congruence. }
      assert (SZ : gsize s' = gsize s) by (unfold gsize; rewrite (kp_vars _ _ _ K); auto).
      unfold sender_topo. replace (keys (gsize s') (nd_act (g_node s' a))) with (keys (gsize s) (nd_act (g_node s a))).
      2:{ rewrite SZ. symmetry. apply keys_ext. intros k _. specialize (AK a k). unfold act in AK. destruct (nd_act (g_node s' a) k), (nd_act (g_node s a) k); simpl in *; congruence. }
      apply rmap_ext. intros r. pose proof (AK r a) as Q. destruct (act s' r a) as [c|], (act s r a) as [c'|]; try discriminate; auto. injection Q as ->.
      rewrite (rmap_ext (fun k => match act s' a k with Some d => Ok (k, c_uid d) | None => UB end) (fun k => match act s a k with Some d => Ok (k, c_uid d) | None => UB end)); auto.
      intros k. pose proof (AK a k) as Q. destruct (act s' a k), (act s a k); congruence.
    Qed.
    Lemma keeps_topo_list s s' l : keeps H s s' -> topo_list s' l = topo_list s l.
    Proof. intros K. induction l as [|a l IH]; simpl; auto. rewrite (keeps_sender s s' a K), IH. auto. Qed.

    Lemma update_merged_ret a s s' : update_merged H e a s = Ret tt s' -> exists m, merge_of H e s a = Ok m /\ s' = set_merged s a m.
    Proof. rewrite update_merged_eq. destruct (merge_of H e s a) as [m| | | |]; simpl; try discriminate. intros [= <-]. eauto. Qed.
    Lemma merged_set s a m x : nd_merged (g_node (set_merged s a m) x) = if x =? a then Some m else nd_merged (g_node s x).
    Proof. simpl. unfold fupd. destruct (x =? a); auto. Qed.
    Lemma um_keeps s a s' : update_merged H e a s = Ret tt s' -> keeps H s s' /\ g_cl s' = g_cl s.
    Proof.
      intros Q. pose proof (update_merged_keeps H e a s E) as K. rewrite Q in K. split; auto. apply update_merged_ret in Q as (m & _ & ->). auto.
    Qed.

    Lemma topo_loop_ret nodes : forall acc s ts s', topo_loop H e nodes acc s = Ret ts s' ->
      keeps H s s' /\ g_cl s' = g_cl s /\ (exists us, topo_list s nodes = Ok us /\ ts = acc ++ us) /\
      (forall a, In a nodes -> exists m, nd_merged (g_node s' a) = Some m /\ merge_of H e s a = Ok m) /\
      (forall a, ~ In a nodes -> nd_merged (g_node s' a) = nd_merged (g_node s a)).
    Proof.
      induction nodes as [|a nodes IH]; intros acc s ts s' Q; cbn [topo_loop] in Q.
      - injection Q as <- <-. splits; auto. apply keeps_refl. exists []. rewrite app_nil_r. auto. intros a [].
      - destruct (update_merged H e a s) as [[] s1| | | |] eqn:E1; try discriminate. cbn [obind] in Q. destruct (um_keeps _ _ _ E1) as [K1 C1].
        destruct (sender_topo e s1 a) as [us| | | |] eqn:ES; try discriminate. cbn [lift obind] in Q. rewrite (keeps_sender s s1 a K1) in ES.
        destruct (IH _ _ _ _ Q) as (K2 & C2 & (vs & T & ->) & M1 & M2). rewrite (keeps_topo_list s s1 nodes K1) in T.
        destruct (update_merged_ret _ _ _ E1) as (m & Em & ->). splits.
        + eapply keeps_trans; eauto.
        + rewrite C2, C1. auto.
        + exists (us ++ vs). simpl. rewrite ES. cbn [rbind]. rewrite T. cbn [rbind]. rewrite app_assoc. auto.
        + intros x [<-|Ix].
          * destruct (in_dec Nat.eq_dec a nodes) as [I1|I1].
            -- destruct (M1 a I1) as (m' & X1 & X2). exists m'. rewrite (keeps_merge_of H s _ e a K1) in X2. auto.
            -- exists m. rewrite (M2 a I1), merged_set, Nat.eqb_refl. auto.
          * destruct (M1 x Ix) as (m' & X1 & X2). exists m'. rewrite (keeps_merge_of H s _ e x K1) in X2. auto.
        + intros x Nx. simpl in Nx. rewrite (M2 x), merged_set by tauto. destruct (Nat.eqb_spec x a) as [->|]; auto. tauto.
    Qed.
    Definition fill_step a s := match nd_merged (g_node s a) with None => update_merged H e a s | Some _ => Ret tt s end.
    Lemma fill_ret nodes : forall s s', ofold fill_step nodes s = Ret tt s' ->
      keeps H s s' /\ g_cl s' = g_cl s /\
      (forall a, In a nodes -> exists m, nd_merged (g_node s' a) = Some m /\ (nd_merged (g_node s a) = Some m \/ nd_merged (g_node s a) = None /\ merge_of H e s a = Ok m)) /\
      (forall a, ~ In a nodes -> nd_merged (g_node s' a) = nd_merged (g_node s a)) /\
      (forall a m, nd_merged (g_node s a) = Some m -> nd_merged (g_node s' a) = Some m).
    Proof.
      induction nodes as [|a nodes IH]; intros s s' Q; cbn [ofold] in Q.
      - injection Q as <-. splits; auto. apply keeps_refl. intros a [].
      - unfold fill_step at 1 in Q. destruct (nd_merged (g_node s a)) as [m0|] eqn:M0.
        + cbn [obind] in Q. destruct (IH _ _ Q) as (K & C & A & B & D). splits; auto.
          * intros x [<-|Ix]; auto. exists m0. auto.
          * intros x Nx. apply B. simpl in Nx. tauto.
        + destruct (update_merged H e a s) as [[] s1| | | |] eqn:E1; try discriminate. cbn [obind] in Q. destruct (um_keeps _ _ _ E1) as [K1 C1].
          destruct (update_merged_ret _ _ _ E1) as (m & Em & ->). destruct (IH _ _ Q) as (K & C & A & B & D). splits.
          * eapply keeps_trans; eauto.
          * rewrite C, C1; auto.
          * intros x [<-|Ix].
            -- exists m. split; [|right; auto]. apply D. rewrite merged_set, Nat.eqb_refl. auto.
            -- destruct (A x Ix) as (m' & X1 & X2). exists m'. split; auto. rewrite merged_set in X2. destruct (Nat.eqb_spec x a) as [->|].
               ++ destruct X2 as [X2|[X2 _]]; [|discriminate]. right. split; auto. congruence.
               ++ rewrite (keeps_merge_of H s _ e x K1) in X2. auto.
          * intros x Nx. simpl in Nx. rewrite B, merged_set by tauto. destruct (Nat.eqb_spec x a) as [->|]; auto. tauto.
          * intros x m' Hx. apply D. rewrite merged_set. destruct (Nat.eqb_spec x a) as [->|]; auto. congruence.
    Qed.

    (** the caches of the cluster [cl] of [s], at position [i], once filled in [t] *)
    Definition filled s (t : gst) (i : nat) (cl : cluster) : Prop :=
      exists ts, nth_error (g_cl t) i = Some (mkCl (cl_nodes cl) (Some ts)) /\
        match cl_topo cl with
        | Some ts' => ts' = ts /\ forall a, In a (cl_nodes cl) -> exists m, nd_merged (g_node t a) = Some m /\
            (nd_merged (g_node s a) = Some m \/ nd_merged (g_node s a) = None /\ merge_of H e s a = Ok m)
        | None => topo_list s (e_ord e (gsize s) (cl_nodes cl)) = Ok ts /\ forall a, In a (cl_nodes cl) -> exists m, nd_merged (g_node t a) = Some m /\ merge_of H e s a = Ok m
        end.
    Lemma get_cl_nth s i cl : get_cl s i = Ok cl <-> nth_error (g_cl s) i = Some cl.
    Proof. unfold get_cl, vget. destruct (nth_error (g_cl s) i); split; congruence. Qed.

    Lemma prepare_ret s i s' fs : core s fs -> clus s -> prepare H e i s = Ret tt s' -> exists cl, nth_error (g_cl s) i = Some cl /\
      keeps H s s' /\ acts_eq s s' /\ filled s s' i cl /\ (forall j, j <> i -> nth_error (g_cl s') j = nth_error (g_cl s) j) /\
      (forall a, ~ In a (cl_nodes cl) -> nd_merged (g_node s' a) = nd_merged (g_node s a)) /\ g_pool s' = g_pool s /\ g_last s' = g_last s.
    Proof.
      intros C CS Q. pose proof (prepare_acts H e i s s' Q) as AE. pose proof (prepare_keeps H fs e i s E C CS) as K. rewrite Q in K. simpl in K.
      assert (PL : g_pool s' = g_pool s /\ g_last s' = g_last s).
      { clear K AE. unfold prepare in Q. destruct (get_cl s i) as [cl| | | |]; try discriminate. cbn [lift obind] in Q. destruct (cl_topo cl).
        - revert Q. generalize (e_ord e (gsize s) (cl_nodes cl)). intros l0. revert s C CS. clear. intros s _ _. revert s. induction l0 as [|a l0 IH]; intros s Q; simpl in Q. injection Q as <-; auto.
          destruct (nd_merged (g_node s a)); [apply IH; auto|]. destruct (update_merged H e a s) as [[] s1| | | |] eqn:E1; try discriminate. simpl in Q.
          apply update_merged_ret in E1 as (m & _ & ->). destruct (IH _ Q) as [-> ->]. auto.
        - unfold update_connectivity in Q. destruct (get_cl s i) as [cl'| | | |]; try discriminate. cbn [lift obind] in Q.
          destruct (topo_loop H e (e_ord e (gsize s) (cl_nodes cl')) [] s) as [ts s1| | | |] eqn:Q1; try discriminate. cbn [obind] in Q. injection Q as <-. simpl.
          revert Q1. generalize (e_ord e (gsize s) (cl_nodes cl')) (@nil topo). intros l0. revert s C CS. clear. intros s _ _. revert s. induction l0 as [|a l0 IH]; intros s acc Q; cbn [topo_loop] in Q. injection Q as _ <-; auto.
          destruct (update_merged H e a s) as [[] s2| | | |] eqn:E1; try discriminate. cbn [obind] in Q. destruct (sender_topo e s2 a); try discriminate. cbn [lift obind] in Q.
          apply update_merged_ret in E1 as (m & _ & ->). destruct (IH _ _ Q) as [-> ->]. auto. }
      unfold prepare in Q. destruct (get_cl s i) as [cl| | | |] eqn:EC; try discriminate. cbn [lift obind] in Q. exists cl. pose proof (proj1 (get_cl_nth _ _ _) EC) as Hi.
      assert (OI : forall a, In a (e_ord e (gsize s) (cl_nodes cl)) <-> In a (cl_nodes cl)) by (intros; apply ord_In; auto).
      splits; try tauto; try apply PL.
      all: destruct (cl_topo cl) as [ts0|] eqn:T.
      - destruct (fill_ret _ _ _ Q) as (K' & C' & A & B & D). exists ts0. split. rewrite C', Hi. destruct cl; simpl in *; subst; auto. rewrite T. split; auto.
        intros a Ia. apply A, OI; auto.
      - unfold update_connectivity in Q. rewrite EC in Q. cbn [lift obind] in Q.
        destruct (topo_loop H e (e_ord e (gsize s) (cl_nodes cl)) [] s) as [ts s1| | | |] eqn:Q1; try discriminate. cbn [obind] in Q. injection Q as <-.
        destruct (topo_loop_ret _ _ _ _ _ Q1) as (K' & C' & (us & TL & ->) & A & B). exists us. split.
        + simpl. rewrite C'. apply nth_error_lset_eq. apply nth_error_Some. congruence.
        + rewrite T. split; auto. intros a Ia. apply A, OI; auto.
      - intros j Nj. destruct (fill_ret _ _ _ Q) as (K' & C' & _). rewrite C'. auto.
      - unfold update_connectivity in Q. rewrite EC in Q. cbn [lift obind] in Q.
        destruct (topo_loop H e (e_ord e (gsize s) (cl_nodes cl)) [] s) as [ts s1| | | |] eqn:Q1; try discriminate. cbn [obind] in Q. injection Q as <-.
        destruct (topo_loop_ret _ _ _ _ _ Q1) as (K' & C' & _). intros j Nj. simpl. rewrite C'. apply nth_error_lset_ne; auto.
      - intros a Na. destruct (fill_ret _ _ _ Q) as (K' & C' & A & B & D). apply B. rewrite OI; auto.
      - unfold update_connectivity in Q. rewrite EC in Q. cbn [lift obind] in Q.
        destruct (topo_loop H e (e_ord e (gsize s) (cl_nodes cl)) [] s) as [ts s1| | | |] eqn:Q1; try discriminate. cbn [obind] in Q. injection Q as <-.
        destruct (topo_loop_ret _ _ _ _ _ Q1) as (K' & C' & _ & A & B). intros a Na. simpl. apply B. rewrite OI; auto.
    Qed.
    Lemma filled_src s s' t j cl : keeps H s s' -> (forall a, In a (cl_nodes cl) -> nd_merged (g_node s' a) = nd_merged (g_node s a)) ->
      filled s t j cl <-> filled s' t j cl.
    Proof.
      intros K M. assert (SZ : gsize s' = gsize s) by (unfold gsize; rewrite (kp_vars _ _ _ K); auto).
      assert (MO : forall a, merge_of H e s' a = merge_of H e s a) by (intros; apply keeps_merge_of; auto).
      unfold filled. rewrite SZ. split; intros (ts & T & F); exists ts; (split; [exact T|]); destruct (cl_topo cl).
      - destruct F as [-> F]. split; auto. intros a Ia. destruct (F a Ia) as (m & X & Y). exists m. rewrite M, MO; auto.
      - rewrite (keeps_topo_list s s') by auto. destruct F as [F1 F]. split; auto. intros a Ia. destruct (F a Ia) as (m & X & Y). exists m. rewrite MO; auto.
      - destruct F as [-> F]. split; auto. intros a Ia. destruct (F a Ia) as (m & X & Y). exists m. rewrite M, MO in Y; auto.
      - rewrite (keeps_topo_list s s') in F by auto. destruct F as [F1 F]. split; auto. intros a Ia. destruct (F a Ia) as (m & X & Y). exists m. rewrite MO in Y; auto.
    Qed.
    Lemma filled_dst s (t t' : gst) j cl : nth_error (g_cl t') j = nth_error (g_cl t) j ->
      (forall a, In a (cl_nodes cl) -> nd_merged (g_node t' a) = nd_merged (g_node t a)) -> filled s t j cl -> filled s t' j cl.
    Proof.
      intros C M (ts & T & F). exists ts. rewrite C. split; auto. destruct (cl_topo cl).
      - destruct F as [-> F]. split; auto. intros a Ia. rewrite M; auto.
      - destruct F as [F1 F]. split; auto. intros a Ia. rewrite M; auto.
    Qed.
    Lemma filled_hot s (t : gst) j cl ts : nth_error (g_cl s) j = Some cl -> cl_topo cl = Some ts -> (forall a, In a (cl_nodes cl) -> nd_merged (g_node s a) <> None) ->
      filled s t j cl -> nth_error (g_cl t) j = nth_error (g_cl s) j /\ forall a, In a (cl_nodes cl) -> nd_merged (g_node t a) = nd_merged (g_node s a).
    Proof.
      intros Hj T M (us & T' & F). rewrite T in F. destruct F as [<- F]. split.
      - rewrite T', Hj. destruct cl; simpl in *; subst; auto.
      - intros a Ia. destruct (F a Ia) as (m & X & [Y|[Y _]]); [congruence|]. destruct (M a Ia Y).
    Qed.

    Lemma prop_fills pool k fs : forall is r s r' s', NoDup is -> core s fs -> clus s -> prop_loop H e pool k is r s = Ret r' s' ->
      (forall j cl, In j is -> nth_error (g_cl s) j = Some cl -> filled s s' j cl) /\
      (forall j, ~ In j is -> nth_error (g_cl s') j = nth_error (g_cl s) j) /\
      (forall a, (forall j cl, In j is -> nth_error (g_cl s) j = Some cl -> ~ In a (cl_nodes cl)) -> nd_merged (g_node s' a) = nd_merged (g_node s a)) /\
      keeps H s s' /\ g_pool s' = g_pool s.
    Proof.
      induction is as [|i is IH]; intros r s r' s' ND C CS Q; cbn [prop_loop] in Q.
      - injection Q as <- <-. splits; auto. intros j cl []. apply keeps_refl.
      - inversion ND as [|? ? Ni ND']; subst. destruct (prepare H e i s) as [[] s1| | | |] eqn:E1; try discriminate. cbn [obind] in Q.
        destruct (prepare_ret s i s1 fs C CS E1) as (cl & Hi & K1 & A1 & F1 & O1 & M1 & P1 & L1).
        assert (C1 : core s1 fs) by (eapply keeps_core; eauto). assert (CS1 : clus s1) by (eapply keeps_clus; eauto).
        destruct (get_cl s1 i) as [cl1| | | |] eqn:EC; try discriminate. cbn [lift obind] in Q.
        pose proof (ofr_message_passing e pool k i s1) as FR2. pose proof (message_passing_keeps H fs e pool k i s1 C1) as K2.
        destruct (message_passing H e pool k i s1) as [tree s2| | | |] eqn:E2; try discriminate. cbn [obind] in Q. simpl in FR2, K2.
        assert (X : exists s3 r3, frame s1 s3 /\ keeps H s1 s3 /\ prop_loop H e pool k is r3 s3 = Ret r' s').
        { destruct tree. exists s2. eexists. splits; eauto. assert (C2 : core s2 fs) by (eapply keeps_core; eauto).
          pose proof (ofr_loopy e pool k i s2) as FR3. pose proof (loopy_propagate_keeps H fs e pool k i s2 C2) as K3.
          destruct (loopy_propagate H e pool k i s2) as [d s3| | | |]; try discriminate. cbn [obind] in Q. simpl in FR3, K3. exists s3. eexists. splits; eauto.
          eapply frame_trans; eauto. eapply keeps_trans; eauto. }
        clear E2 Q FR2 K2. destruct X as (s3 & r3 & [FR3 FM] & K3 & Q). destruct FR3 as (FC & FP & _).
        assert (C3 : core s3 fs) by (eapply keeps_core; eauto). assert (CS3 : clus s3) by (eapply keeps_clus; eauto).
        destruct (IH _ _ _ _ ND' C3 CS3 Q) as (I1 & I2 & I3 & I4 & I5).
        assert (DJ : forall j cj a, In j is -> nth_error (g_cl s) j = Some cj -> In a (cl_nodes cj) -> ~ In a (cl_nodes cl)).
        { intros j cj a Ij Hj Ia Ia'. apply Ni. rewrite (cluster_disjoint s i j cl cj a); auto. }
        assert (CE : forall j, j <> i -> nth_error (g_cl s3) j = nth_error (g_cl s) j). { intros j Nj. rewrite FC. auto. }
        assert (K13 : keeps H s s3) by (eapply keeps_trans; eauto).
        splits.
        + intros j cj [<-|Ij] Hj.
          * assert (cj = cl) by congruence. subst cj. apply filled_dst with (t := s1); auto.
            -- rewrite I2, FC by auto. auto.
            -- intros a Ia. rewrite I3, FM; auto. intros j cj Ij Hj'. rewrite CE in Hj' by congruence. intros Ia'. eapply DJ; eauto.
          * apply (filled_src s s3); auto. intros a Ia. rewrite FM, M1; auto. eapply DJ; eauto. apply I1; auto. rewrite CE; auto. congruence.
        + intros j Nj. simpl in Nj. rewrite I2, CE; auto.
        + intros a Na. rewrite I3, FM, M1; auto. apply (Na i); simpl; auto. intros j cj Ij Hj. rewrite CE in Hj by congruence. apply (Na j); simpl; auto.
        + eapply keeps_trans; eauto.
        + congruence.
    Qed.

    (** {1 A propagation with the caches filled in advance} *)
    Definition inside s (is : list nat) (a : nat) : Prop := exists j cl, In j is /\ nth_error (g_cl s) j = Some cl /\ In a (cl_nodes cl).
    Record lag (is : list nat) s (t : gst) : Prop := {
      lg_like : like (fun a => ~ inside s is a) s t;
      lg_cl : forall j, ~ In j is -> nth_error (g_cl t) j = nth_error (g_cl s) j;
      lg_filled : forall j cl, In j is -> nth_error (g_cl s) j = Some cl -> filled s t j cl
    }.

    Lemma lag_prepare fs i is s t s1 : NoDup (i :: is) -> core s fs -> clus s -> lag (i :: is) s t -> prepare H e i s = Ret tt s1 ->
      prepare H e i t = Ret tt t /\ lag is s1 t.
    Proof.
      intros ND C CS L Q. inversion ND as [|? ? Ni ND']; subst. destruct (prepare_ret s i s1 fs C CS Q) as (cl & Hi & K1 & A1 & F1 & O1 & M1 & P1 & L1).
      pose proof (lg_filled _ _ _ L i cl (or_introl eq_refl) Hi) as (ts & T & F).
      assert (MT : forall a, In a (cl_nodes cl) -> exists m, nd_merged (g_node t a) = Some m /\ nd_merged (g_node s1 a) = Some m).
      { intros a Ia. destruct F1 as (ts' & T' & F'). destruct (cl_topo cl).
        - destruct F as [_ F], F' as [_ F']. destruct (F a Ia) as (m & X & Y), (F' a Ia) as (m' & X' & Y'). exists m. split; auto. rewrite X'. f_equal.
          destruct Y as [Y|[Y Z]], Y' as [Y'|[Y' Z']]; congruence.
        - destruct F as [_ F], F' as [_ F']. destruct (F a Ia) as (m & X & Y), (F' a Ia) as (m' & X' & Y'). exists m. split; auto. congruence. }
      assert (TT : nth_error (g_cl s1) i = nth_error (g_cl t) i).
      { destruct F1 as (ts' & T' & F'). rewrite T, T'. destruct (cl_topo cl); destruct F as [F _], F' as [F' _]; congruence. }
      split.
      - unfold prepare. rewrite (proj2 (get_cl_nth t i _) T). cbn [lift obind cl_topo cl_nodes].
        assert (G : forall l, (forall a, In a l -> In a (cl_nodes cl)) -> ofold (fun a s => match nd_merged (g_node s a) with None => update_merged H e a s | Some _ => Ret tt s end) l t = Ret tt t).
        { induction l as [|a l IH]; intros SB; cbn [ofold]; auto. destruct (MT a) as (m & -> & _). apply SB; simpl; auto. cbn [obind]. apply IH. intros; apply SB; simpl; auto. }
        apply G. intros a Ia. apply ord_In in Ia; auto.
      - assert (IN : forall a, ~ inside s1 is a -> ~ In a (cl_nodes cl) -> ~ inside s (i :: is) a).
        { intros a Na Nc (j & cj & Ij & Hj & Ia). destruct Ij as [<-|Ij]. assert (cj = cl) by congruence. subst; auto.
          apply Na. exists j, cj. splits; auto. rewrite O1; auto. congruence. }
        constructor.
        + pose proof (lg_like _ _ _ L) as LK. constructor; try (rewrite (kp_vars _ _ _ K1)); try (rewrite (kp_next _ _ _ K1)); try (rewrite (kp_all _ _ _ K1)); try (rewrite (kp_iters _ _ _ K1)); try apply LK.
          * intros a. rewrite (kp_ev _ _ _ K1). apply LK.
          * intros a b. rewrite (A1 a b). apply LK.
          * intros a b. rewrite (kp_dis _ _ _ K1). apply LK.
          * intros a. rewrite (kp_un _ _ _ K1). apply LK.
          * intros a Na. destruct (in_dec Nat.eq_dec a (cl_nodes cl)) as [Ia|Ia].
            -- destruct (MT a Ia) as (m & -> & ->). auto.
            -- rewrite M1 by auto. apply LK. auto.
        + intros j Nj. destruct (Nat.eq_dec j i) as [->|D]. auto. rewrite (O1 j D). apply (lg_cl _ _ _ L). simpl. intuition congruence.
        + intros j cj Ij Hj. assert (D : j <> i) by congruence. rewrite (O1 j D) in Hj. apply (filled_src s s1); auto.
          * intros a Ia. apply M1. intros Ia'. apply D. rewrite (cluster_disjoint s i j cl cj a); auto.
          * apply (lg_filled _ _ _ L); simpl; auto.
    Qed.
    Lemma lag_frame is s t s1 (t1 : gst) : lag is s t -> keeps H s s1 -> frame s s1 -> frame t t1 -> like (fun a => ~ inside s is a) s1 t1 -> lag is s1 t1.
    Proof.
      intros L K [(FC & _) FM] [(FC' & _) FM'] LK. constructor.
      - assert (IE : forall a, inside s1 is a <-> inside s is a) by (intros a; unfold inside; rewrite FC; tauto).
        constructor; try apply LK. intros a Na. apply LK. rewrite <- IE; auto.
      - intros j Nj. rewrite FC, FC'. apply L; auto.
      - intros j cj Ij Hj. rewrite FC in Hj. apply (filled_src s s1); auto. apply filled_dst with (t := t). rewrite FC'; auto. intros; apply FM'. apply L; auto.
    Qed.
    Lemma like_weak (P P' : nat -> Prop) s s' : (forall a, P' a -> P a) -> like P s s' -> like P' s s'.
    Proof. intros W L. constructor; try apply L. intros a Pa. apply L; auto. Qed.

    Lemma lag_prop_loop pool k fs : forall is r s t r' s', NoDup is -> core s fs -> clus s -> lag is s t -> prop_loop H e pool k is r s = Ret r' s' ->
      exists t', prop_loop H e pool k is r t = Ret r' t' /\ lag [] s' t'.
    Proof.
      induction is as [|i is IH]; intros r s t r' s' ND C CS L Q; cbn [prop_loop] in Q |- *.
      - injection Q as <- <-. eauto.
      - inversion ND as [|? ? Ni ND']; subst. destruct (prepare H e i s) as [[] s1| | | |] eqn:E1; try discriminate. cbn [obind] in Q.
        destruct (lag_prepare fs i is s t s1 ND C CS L E1) as [E1' L1]. rewrite E1'. cbn [obind].
        pose proof (prepare_keeps H fs e i s E C CS) as K1. rewrite E1 in K1. simpl in K1.
        assert (C1 : core s1 fs) by (eapply keeps_core; eauto). assert (CS1 : clus s1) by (eapply keeps_clus; eauto).
        destruct (get_cl s1 i) as [cl| | | |] eqn:EC; try discriminate. cbn [lift obind] in Q. pose proof (proj1 (get_cl_nth _ _ _) EC) as Hi.
        assert (EC' : get_cl t i = Ok cl). { apply get_cl_nth. rewrite (lg_cl _ _ _ L1); auto. }
        rewrite EC'. cbn [lift obind].
        assert (PS : forall ts u, cl_topo cl = Some ts -> In u ts -> ~ inside s1 is (t_snd u)).
        { intros ts u Et Iu (j & cj & Ij & Hj & Ia). pose proof (cs_topo _ CS1 cl ts (nth_error_In _ _ Hi) Et) as TO.
          destruct (proj1 (tk_edges _ _ _ TO (t_snd u) (t_rcv u)) ltac:(apply in_map_iff; exists u; auto)) as [I1 _].
          apply Ni. rewrite (cluster_disjoint s1 i j cl cj (t_snd u)); auto. }
        pose proof (lsim_message_passing (fun a => ~ inside s1 is a) e pool k i cl s1 t E EC EC' PS (lg_like _ _ _ L1)) as S2.
        pose proof (ofr_message_passing e pool k i s1) as FR2. pose proof (ofr_message_passing e pool k i t) as FR2'. pose proof (message_passing_keeps H fs e pool k i s1 C1) as K2.
        destruct (message_passing H e pool k i s1) as [tree s2| | | |] eqn:E2; try discriminate. cbn [obind] in Q. simpl in FR2, K2. destruct S2 as (t2 & E2' & LK2).
        rewrite E2' in FR2' |- *. cbn [obind]. simpl in FR2'.
        assert (L2 : lag is s2 t2) by (eapply lag_frame; eauto).
        assert (C2 : core s2 fs) by (eapply keeps_core; eauto). assert (CS2 : clus s2) by (eapply keeps_clus; eauto).
        destruct tree. eapply IH; eauto.
        assert (EC2 : get_cl s2 i = Ok cl). { unfold get_cl. rewrite (proj1 (proj1 FR2)). exact EC. }
        assert (EC2' : get_cl t2 i = Ok cl). { unfold get_cl. rewrite (proj1 (proj1 FR2')). exact EC'. }
        pose proof (lsim_loopy (fun a => ~ inside s1 is a) e pool k i cl s2 t2 E EC2 EC2' PS LK2) as S3.
        pose proof (ofr_loopy e pool k i s2) as FR3. pose proof (ofr_loopy e pool k i t2) as FR3'. pose proof (loopy_propagate_keeps H fs e pool k i s2 C2) as K3.
        destruct (loopy_propagate H e pool k i s2) as [d s3| | | |] eqn:E3; try discriminate. cbn [obind] in Q. simpl in FR3, K3. destruct S3 as (t3 & E3' & LK3).
        rewrite E3' in FR3' |- *. cbn [obind]. simpl in FR3'. eapply IH; [..|exact Q]; auto. eapply keeps_core; eauto. eapply keeps_clus; eauto.
        eapply lag_frame; [exact L2|..]; eauto. eapply like_weak; [|exact LK3]. intros a Na Ia. apply Na. destruct Ia as (j & cj & Ij & Hj & Ia). exists j, cj. rewrite (proj1 (proj1 FR2)). auto.
    Qed.
    (** {1 Propagations after propagations} *)
    Lemma reset_ret s fs : core s fs -> exists s', reset_messages e s = Ret tt s'.
    Proof.
      intros C.
      assert (G1 : forall a l s, core s fs -> (forall b, In b l -> act s a b <> None) -> exists s', ofold (fun b s => set_act_msg s a b None) l s = Ret tt s' /\ core s' fs /\ keeps H s s').
      { intros a. induction l as [|b l IH]; intros s1 C1 D; simpl. exists s1. splits; auto. apply keeps_refl.
        pose proof (set_act_msg_keeps H s1 a b None) as K. destruct (act s1 a b) as [c|] eqn:Q; [|destruct (D b); simpl; auto].
        destruct (set_act_msg_spec s1 a b c None Q) as (s2 & E2 & _). rewrite E2 in K |- *. simpl in K |- *. assert (C2 : core s2 fs) by (eapply keeps_core; eauto).
        destruct (IH s2 C2) as (s3 & E3 & C3 & K3).
        - intros x Ix. pose proof (kp_act _ _ _ K a x) as KA. specialize (D x (or_intror Ix)). destruct (act s2 a x); [discriminate|]. destruct (act s1 a x); [discriminate|]. tauto.
        - exists s3. splits; auto. eapply keeps_trans; eauto. }
      assert (G2 : forall l s, core s fs -> exists s', ofold (fun a s => ofold (fun b s => set_act_msg s a b None) (e_ord e a (keys (gsize s) (nd_act (g_node s a)))) s) l s = Ret tt s' /\ core s' fs).
      { induction l as [|a l IH]; intros s1 C1; simpl. eauto. destruct (G1 a (e_ord e a (keys (gsize s1) (nd_act (g_node s1 a)))) s1 C1) as (s2 & -> & C2 & _).
        - intros b Ib. apply ord_In in Ib; auto. apply keys_In in Ib as [_ [c Q]]. unfold act. congruence.
        - cbn [obind]. auto. }
      assert (G3 : forall cls s, core s fs -> exists s', ofold (fun cl s => ofold (fun a s => ofold (fun b s => set_act_msg s a b None) (e_ord e a (keys (gsize s) (nd_act (g_node s a)))) s) (e_ord e (gsize s) (cl_nodes cl)) s) cls s = Ret tt s').
      { induction cls as [|cl cls IH]; intros s1 C1; simpl. eauto. destruct (G2 (e_ord e (gsize s1) (cl_nodes cl)) s1 C1) as (s2 & -> & C2). cbn [obind]. auto. }
      unfold reset_messages. apply G3; auto.
    Qed.

    Definition same_class (n n' : nat) : Prop := n = n' \/ (2 <= n /\ 2 <= n').
    Lemma schedule_class n n' : same_class n n' -> forall {A} (l : list A), schedule e n l = schedule e n' l.
    Proof. intros [->|[A B]] X l; auto. unfold schedule. destruct (Nat.eqb_spec n 1), (Nat.eqb_spec n' 1); auto; lia. Qed.
    Lemma obind_ext {A B} (o : out gst A) (f g : A -> gst -> out gst B) : (forall a s, f a s = g a s) -> obind o f = obind o g.
    Proof. intros Q. destruct o; simpl; auto. Qed.
    Lemma mp_class n n' k : same_class n n' -> forall m l s, mp_loop H m e n k l s = mp_loop H m e n' k l s.
    Proof.
      intros SC. induction m as [|m IH]; intros [|t l] s; cbn [mp_loop]; auto. apply obind_ext. intros [ready wait] s1. destruct ready; auto.
      rewrite (schedule_class n n' SC). apply obind_ext. intros _ s2. auto.
    Qed.
    Lemma sweep_class n n' k bs : same_class n n' -> forall v s, loopy_sweep H e n k bs v s = loopy_sweep H e n' k bs v s.
    Proof. intros SC. induction bs as [|b bs IH]; intros v s; cbn [loopy_sweep]; auto. rewrite (schedule_class n n' SC). apply obind_ext. auto. Qed.
    Lemma iter_class n n' k bs : same_class n n' -> forall m s, loopy_iter H m e n k bs s = loopy_iter H m e n' k bs s.
    Proof. intros SC. induction m as [|m IH]; intros s; cbn [loopy_iter]; auto. rewrite (sweep_class n n' k bs SC). apply obind_ext. intros v s1. destruct (below_tolerance v); auto. Qed.
    Lemma prop_class n n' k : same_class n n' -> forall is r s, prop_loop H e n k is r s = prop_loop H e n' k is r s.
    Proof.
      intros SC. induction is as [|i is IH]; intros r s; cbn [prop_loop]; auto. apply obind_ext. intros _ s1. apply obind_ext. intros cl s2.
      replace (message_passing H e n k i s2) with (message_passing H e n' k i s2).
      2:{ unfold message_passing. apply obind_ext. intros cl' s3. destruct (cl_topo cl'); auto. symmetry. apply mp_class; auto. }
      apply obind_ext. intros tree s3. destruct tree; auto.
      replace (loopy_propagate H e n k i s3) with (loopy_propagate H e n' k i s3).
      2:{ unfold loopy_propagate. apply obind_ext. intros cl' s4. apply obind_ext. intros _ s5. destruct (cl_topo cl') as [ts|]; auto.
          assert (LO : loopy_order n' ts = loopy_order n ts). { unfold loopy_order. destruct SC as [->|[A B]]; auto. destruct (Nat.ltb_spec 1 n), (Nat.ltb_spec 1 n'); auto; lia. }
          rewrite LO. apply obind_ext. intros bs s6. symmetry. apply iter_class; auto. }
      apply obind_ext. intros; auto.
    Qed.

    (** [t] is [s] after propagations *)
    Record ready s (t : gst) : Prop := {
      rd_keeps : keeps H s t;
      rd_filled : forall j cl, nth_error (g_cl s) j = Some cl -> filled s t j cl;
      rd_out : forall a, (forall cl, In cl (g_cl s) -> ~ In a (cl_nodes cl)) -> nd_merged (g_node t a) = nd_merged (g_node s a)
    }.

    (** the parts of a propagation that is done *)
    Lemma check_parts e0 k n s s1 : env_ok e0 -> g_pool s = Some 1 -> would_need s k = true -> check_propagation H e0 k n s = Ret tt s1 ->
      exists s2 s3 r, 1 <= n /\ reset_messages e0 (if n =? 1 then s else set_pool s (Some n)) = Ret tt s2 /\
        prop_loop H e0 n k (seq 0 (length (g_cl s2))) (mkPR k true []) s2 = Ret r s3 /\ s1 = set_pool (set_last s3 (Some r)) (Some 1).
    Proof.
      intros E0 P W Q. unfold check_propagation in Q. rewrite W in Q. unfold scoped_pool, set_pool_size in Q. rewrite P in Q.
      assert (X : forall s0, s0 = (if n =? 1 then s else set_pool s (Some n)) -> 1 <= n -> match propagate H e0 k s0 with Ret a s => Ret a (set_pool s (Some 1)) | Thr s => Thr (set_pool s (Some 1)) | Undef => Undef | NotNum => NotNum | NoStop => NoStop end = Ret tt s1 ->
        exists s2 s3 r, 1 <= n /\ reset_messages e0 s0 = Ret tt s2 /\ prop_loop H e0 n k (seq 0 (length (g_cl s2))) (mkPR k true []) s2 = Ret r s3 /\ s1 = set_pool (set_last s3 (Some r)) (Some 1)).
      { intros s0 -> Ln R. unfold propagate in R.
        assert (WS : would_need (if n =? 1 then s else set_pool s (Some n)) k = true) by (destruct (n =? 1); exact W). rewrite WS in R. cbn [negb] in R.
        assert (PS : g_pool (if n =? 1 then s else set_pool s (Some n)) = Some n) by (destruct (Nat.eqb_spec n 1); subst; auto). rewrite PS in R.
        destruct (reset_messages e0 (if n =? 1 then s else set_pool s (Some n))) as [[] s2| | | |] eqn:R1; try discriminate. cbn [obind] in R.
        destruct (prop_loop H e0 n k (seq 0 (length (g_cl s2))) (mkPR k true []) s2) as [r s3| | | |] eqn:R2; try discriminate. cbn [obind] in R.
        injection R as <-. exists s2, s3, r. auto. }
      destruct (Nat.eqb_spec n 1) as [->|D1].
      - cbn [obind] in Q. apply X; auto.
      - destruct (Nat.eqb_spec n 0) as [->|D0]. discriminate. cbn [obind] in Q. apply X; auto. lia.
    Qed.
    Lemma parts_check e0 k n s s2 s3 r : env_ok e0 -> g_pool s = Some 1 -> would_need s k = true -> 1 <= n ->
      reset_messages e0 (if n =? 1 then s else set_pool s (Some n)) = Ret tt s2 ->
      prop_loop H e0 n k (seq 0 (length (g_cl s2))) (mkPR k true []) s2 = Ret r s3 ->
      check_propagation H e0 k n s = Ret tt (set_pool (set_last s3 (Some r)) (Some 1)).
    Proof.
      intros E0 P W Ln R1 R2. unfold check_propagation. rewrite W. unfold scoped_pool, set_pool_size. rewrite P.
      assert (WS : would_need (if n =? 1 then s else set_pool s (Some n)) k = true) by (destruct (n =? 1); exact W).
      assert (PS : g_pool (if n =? 1 then s else set_pool s (Some n)) = Some n) by (destruct (Nat.eqb_spec n 1); subst; auto).
      assert (X : propagate H e0 k (if n =? 1 then s else set_pool s (Some n)) = Ret tt (set_last s3 (Some r))).
      { unfold propagate. rewrite WS. cbn [negb]. rewrite PS, R1. cbn [obind]. rewrite R2. auto. }
      destruct (Nat.eqb_spec n 1) as [->|D1].
      - cbn [obind]. rewrite X. auto.
      - destruct (Nat.eqb_spec n 0) as [->|D0]. lia. cbn [obind]. rewrite X. auto.
    Qed.

    (** the state in which the messages are computed *)
    Definition base n s : gst := if n =? 1 then s else set_pool s (Some n).
    Lemma base_keeps n s : keeps H s (base n s).
    Proof. unfold base. destruct (n =? 1). apply keeps_refl. apply keeps_pool. Qed.
    Lemma base_same n s : g_cl (base n s) = g_cl s /\ g_node (base n s) = g_node s /\ g_all (base n s) = g_all s.
    Proof. unfold base. destruct (n =? 1); auto. Qed.
  End Prep.

  Section Again.
    Variable e : env.
    Hypothesis E : env_ok e.

    (** what a propagation leaves, whatever its own orders *)
    Lemma check_leaves e0 k n s s1 : env_ok e0 -> inv H s -> g_pool s = Some 1 -> would_need s k = true -> check_propagation H e0 k n s = Ret tt s1 -> ready e0 s s1.
    Proof.
      intros E0 [C CS] P W Q. destruct (check_parts e0 k n s s1 E0 P W Q) as (s2 & s3 & r & Ln & R1 & R2 & ->). fold (base n s) in R1.
      destruct (base_same n s) as (B1 & B2 & B3). pose proof (base_keeps n s) as KB.
      assert (CB : core (base n s) (g_all s)) by (eapply keeps_core; eauto).
      pose proof (ofr_reset e0 (base n s)) as FR. pose proof (reset_messages_keeps H (g_all s) e0 (base n s) CB) as K. rewrite R1 in FR, K. simpl in FR, K.
      assert (C2 : core s2 (g_all s)) by (eapply keeps_core; eauto). assert (CS2 : clus s2) by (eapply keeps_clus; [exact K|]; eapply keeps_clus; eauto).
      destruct (prop_fills e0 E0 n k (g_all s) _ _ _ _ _ (seq_NoDup _ _) C2 CS2 R2) as (F1 & _ & F3 & F4 & _).
      assert (K2 : keeps H s s2) by (eapply keeps_trans; eauto).
      destruct FR as [FC FM]. assert (EC : g_cl s2 = g_cl s) by (rewrite (proj1 FC); auto).
      assert (EM : forall a, nd_merged (g_node s2 a) = nd_merged (g_node s a)) by (intros a; rewrite FM, B2; auto).
      constructor.
      - eapply keeps_trans; [exact K2|]. eapply keeps_trans; [exact F4|]. eapply keeps_trans; [apply keeps_last|apply keeps_pool].
      - intros j cl Hj. apply (filled_dst e0 s s3); auto. apply (filled_src e0 s s2); auto. apply F1; [|rewrite EC; auto]. apply in_seq. rewrite EC. split; [lia|]. apply nth_error_Some. congruence.
      - intros a Na. simpl. rewrite F3, EM; auto. intros j cl _ Hj. apply Na. rewrite EC in Hj. eapply nth_error_In; eauto.
    Qed.

    (** a second propagation leaves the caches as they are *)
    Lemma ready_again e0 k n s t t1 : env_ok e0 -> inv H t -> g_pool t = Some 1 -> ready e s t -> check_propagation H e0 k n t = Ret tt t1 -> ready e s t1 /\ g_pool t1 = Some 1.
    Proof.
      intros E0 IT P R Q. destruct (would_need t k) eqn:W.
      - split; [|destruct (check_parts e0 k n t t1 E0 P W Q) as (? & ? & ? & _ & _ & _ & ->); auto].
        pose proof (check_leaves e0 k n t t1 E0 IT P W Q) as L.
        assert (ND : forall j cl, nth_error (g_cl s) j = Some cl -> exists cl', nth_error (g_cl t) j = Some cl' /\ cl_nodes cl' = cl_nodes cl /\
          (exists ts, cl_topo cl' = Some ts) /\ forall a, In a (cl_nodes cl') -> nd_merged (g_node t a) <> None).
        { intros j cl Hj. destruct (rd_filled _ _ _ R j cl Hj) as (ts & T & F). eexists. split. exact T. simpl. splits; eauto. intros a Ia.
          destruct (cl_topo cl); destruct F as [_ F]; destruct (F a Ia) as (m & X & _); congruence. }
        assert (HOT : forall j cl, nth_error (g_cl s) j = Some cl -> nth_error (g_cl t1) j = nth_error (g_cl t) j /\ forall a, In a (cl_nodes cl) -> nd_merged (g_node t1 a) = nd_merged (g_node t a)).
        { intros j cl Hj. destruct (ND j cl Hj) as (cl' & H' & N' & (ts & T') & M'). rewrite <- N'. eapply (filled_hot e0 t t1 j cl' ts); eauto. apply L; auto. }
        constructor.
        + eapply keeps_trans. apply R. apply L.
        + intros j cl Hj. destruct (HOT j cl Hj) as [X Y]. apply (filled_dst e s t t1); auto. apply R; auto.
        + intros a Na. rewrite (rd_out _ _ _ L). apply R; auto. intros cl Icl. apply In_nth_error in Icl as [j Hj].
          assert (X : map cl_nodes (g_cl t) = map cl_nodes (g_cl s)) by apply R. assert (Y : nth_error (map cl_nodes (g_cl t)) j = Some (cl_nodes cl)) by (apply map_nth_error; auto).
          rewrite X in Y. rewrite nth_error_map in Y. destruct (nth_error (g_cl s) j) as [cl0|] eqn:H0; [|discriminate]. simpl in Y. injection Y as <-. apply Na. eapply nth_error_In; eauto.
      - unfold check_propagation in Q. rewrite W in Q. injection Q as <-. auto.
    Qed.

    (** the messages do not depend on the propagations in between *)
    Lemma check_again k n n' s s1 t : inv H s -> clean s -> inv H t -> g_pool s = Some 1 -> g_pool t = Some 1 -> ready e s t -> same_class n n' ->
      would_need s k = true -> would_need t k = true -> check_propagation H e k n s = Ret tt s1 ->
      exists t1, check_propagation H e k n' t = Ret tt t1 /\ geq s1 t1.
    Proof.
      intros [C CS] CL [CT CST] P P' R SC W W' Q. destruct (check_parts e k n s s1 E P W Q) as (s2 & s3 & r & Ln & R1 & R2 & ->). fold (base n s) in R1.
      destruct (base_same n s) as (B1 & B2 & B3). pose proof (base_keeps n s) as KB.
      destruct (base_same n' t) as (B1' & B2' & B3'). pose proof (base_keeps n' t) as KB'.
      assert (CB : core (base n s) (g_all s)) by (eapply keeps_core; eauto).
      assert (CB' : core (base n' t) (g_all t)) by (eapply keeps_core; eauto).
      pose proof (ofr_reset e (base n s)) as FR. pose proof (reset_messages_keeps H (g_all s) e (base n s) CB) as K. rewrite R1 in FR, K. simpl in FR, K.
      destruct (reset_ret e E (base n' t) (g_all t) CB') as (t2 & R1').
      pose proof (ofr_reset e (base n' t)) as FR'. pose proof (reset_messages_keeps H (g_all t) e (base n' t) CB') as K'. rewrite R1' in FR', K'. simpl in FR', K'.
      assert (C2 : core s2 (g_all s)) by (eapply keeps_core; eauto). assert (CS2 : clus s2) by (eapply keeps_clus; [exact K|]; eapply keeps_clus; eauto).
      assert (K2 : keeps H s s2) by (eapply keeps_trans; eauto). assert (KT2 : keeps H t t2) by (eapply keeps_trans; eauto).
      assert (KST : keeps H s t2) by (eapply keeps_trans; [apply R|exact KT2]).
      destruct FR as [FC FM], FR' as [FC' FM'].
      assert (EC : g_cl s2 = g_cl s) by (rewrite (proj1 FC); auto). assert (EC' : g_cl t2 = g_cl t) by (rewrite (proj1 FC'); auto).
      assert (EM : forall a, nd_merged (g_node s2 a) = nd_merged (g_node s a)) by (intros a; rewrite FM, B2; auto).
      assert (EM' : forall a, nd_merged (g_node t2 a) = nd_merged (g_node t a)) by (intros a; rewrite FM', B2'; auto).
      assert (CL2 : clean s2) by (eapply keeps_clean; eauto).
      assert (PE : pending s2 (seq 0 (length (g_cl s2)))). { apply (reset_pending H e E (base n s)); auto. rewrite B3; auto. }
      assert (PE' : pending t2 (seq 0 (length (g_cl t2)))). { apply (reset_pending H e E (base n' t)); auto. rewrite B3'; auto. }
      assert (LN : length (g_cl t2) = length (g_cl s2)). { rewrite <- (map_length cl_nodes (g_cl t2)), (kp_cl _ _ _ KST), map_length, EC. auto. }
      assert (CLU : forall a, In a (hid s2) -> exists j cl, nth_error (g_cl s2) j = Some cl /\ In a (cl_nodes cl)).
      { intros a Ia. apply (Permutation_in _ (Permutation_sym (cp_perm _ _ _ (cs_comp _ CS2)))) in Ia. apply in_concat in Ia as (c & Ic & Ia). apply in_map_iff in Ic as (cl & <- & Ic).
        apply In_nth_error in Ic as [j Hj]. eauto. }
      assert (AE : forall a b, act t2 a b = act s2 a b).
      { intros a b. pose proof (kp_act _ _ _ KST a b) as KA. pose proof (kp_act _ _ _ K2 a b) as KA2. rewrite <- KA2 in KA.
        destruct (act s2 a b) as [c|] eqn:A2; destruct (act t2 a b) as [c'|] eqn:A2'; simpl in KA; try discriminate; auto.
        assert (HA : In a (hid s2)). { apply hid_In. split. { pose proof (co_act _ _ _ C2 a b c A2) as LKn. apply link_lt in LKn. tauto. } apply (CL2 a b). exists c; auto. }
        destruct (CLU a HA) as (j & cl & Hj & Ia).
        assert (Hj' : exists cl', nth_error (g_cl t2) j = Some cl' /\ cl_nodes cl' = cl_nodes cl).
        { assert (X : map cl_nodes (g_cl t2) = map cl_nodes (g_cl s2)). { rewrite (kp_cl _ _ _ KST), EC. auto. }
          assert (Y : nth_error (map cl_nodes (g_cl t2)) j = Some (cl_nodes cl)) by (rewrite X; apply map_nth_error; auto).
          rewrite nth_error_map in Y. destruct (nth_error (g_cl t2) j) as [cl'|]; [|discriminate]. simpl in Y. exists cl'. split; congruence. }
        destruct Hj' as (cl' & Hj' & N').
        assert (Lj : j < length (g_cl s2)) by (apply nth_error_Some; congruence).
        pose proof (PE j cl a b ltac:(apply in_seq; lia) Hj Ia) as M. pose proof (PE' j cl' a b ltac:(apply in_seq; lia) Hj' ltac:(rewrite N'; auto)) as M'.
        unfold msg in M, M'. simpl in M, M'. rewrite A2 in M. rewrite A2' in M'. unfold c_key in KA. destruct c, c'; simpl in *. congruence. }
      assert (LG : lag e (seq 0 (length (g_cl s2))) s2 t2).
      { constructor.
        - constructor; try (rewrite (kp_vars _ _ _ KST), (kp_vars _ _ _ K2); auto); try (rewrite (kp_next _ _ _ KST), (kp_next _ _ _ K2); auto); try (rewrite (kp_all _ _ _ KST), (kp_all _ _ _ K2); auto);
            try (rewrite (kp_iters _ _ _ KST), (kp_iters _ _ _ K2); auto).
          + intros a. rewrite (kp_ev _ _ _ KST), (kp_ev _ _ _ K2); auto.
          + exact AE.
          + intros a b. rewrite (kp_dis _ _ _ KST), (kp_dis _ _ _ K2); auto.
          + intros a. rewrite (kp_un _ _ _ KST), (kp_un _ _ _ K2); auto.
          + intros a Na. rewrite EM, EM'. apply R. intros cl Icl Ia. apply Na. apply In_nth_error in Icl as [j Hj]. exists j, cl. rewrite EC. splits; auto. apply in_seq. split; [lia|]. apply nth_error_Some. congruence.
        - intros j Nj. assert (X : nth_error (g_cl s2) j = None). { apply nth_error_None. destruct (le_lt_dec (length (g_cl s2)) j); auto. destruct Nj. apply in_seq. lia. }
          rewrite X. apply nth_error_None. rewrite LN. apply nth_error_None; auto.
        - intros j cl Ij Hj. rewrite EC in Hj. apply (filled_src e s s2); auto. apply (filled_dst e s t t2); auto. rewrite EC'; auto. apply R; auto. }
      destruct (lag_prop_loop e E n k (g_all s) _ _ _ _ _ _ (seq_NoDup _ _) C2 CS2 LG R2) as (t3 & R2' & LG3).
      rewrite (prop_class e n n' k SC), <- LN in R2'.
      assert (Ln' : 1 <= n') by (destruct SC as [->|[_ ?]]; lia).
      eexists. split. eapply (parts_check e k n' t t2 t3); eauto.
      pose proof (lg_like _ _ _ _ LG3) as LK. constructor; simpl; try apply LK; auto.
      - apply nth_error_ext. intros j. apply (lg_cl _ _ _ _ LG3). intros [].
      - intros a. apply LK. intros (j & cl & [] & _).
    Qed.
  End Again.
  (** {1 The size of the pool is not read by the computations of the messages} *)
  Section Blind.
    Variable p : option nat.
    Variable e : env.
    Notation sp s := (set_pool s p).
    Definition ost {A} (o : out gst A) : out gst A := match o with Ret a s => Ret a (sp s) | Thr s => Thr (sp s) | Undef => Undef | NotNum => NotNum | NoStop => NoStop end.
    Lemma bl_bind {A B} (o o' : out gst A) (f f' : A -> gst -> out gst B) : o' = ost o -> (forall a s, f' a (sp s) = ost (f a s)) -> obind o' f' = ost (obind o f).
    Proof. intros -> F. destruct o; simpl; auto. Qed.
    Lemma bl_lift {A} (r : res A) s : lift r (sp s) = ost (lift r s).
    Proof. destruct r; auto. Qed.
    Lemma bl_fold {A} (f : A -> gst -> out gst unit) l : (forall x s, f x (sp s) = ost (f x s)) -> forall s, ofold f l (sp s) = ost (ofold f l s).
    Proof. intros F. induction l as [|x l IH]; intros s; simpl; auto. apply bl_bind; auto. Qed.
    Lemma bl_set s a b m : set_act_msg (sp s) a b m = ost (set_act_msg s a b m).
    Proof. unfold set_act_msg. change (act (sp s) a b) with (act s a b). destruct (act s a b); auto. Qed.
    Lemma bl_merged a s : update_merged H e a (sp s) = ost (update_merged H e a s).
    Proof.
      unfold update_merged. change (gather_unaries H e (sp s) a) with (gather_unaries H e s a). destruct (gather_unaries H e s a); (apply bl_bind; [apply bl_lift|auto]).
    Qed.
    Lemma bl_topo nodes : forall acc s, topo_loop H e nodes acc (sp s) = ost (topo_loop H e nodes acc s).
    Proof.
      induction nodes as [|a nodes IH]; intros acc s; cbn [topo_loop]; auto. apply bl_bind. apply bl_merged. intros _ s1. apply bl_bind; auto.
      change (sender_topo e (sp s1) a) with (sender_topo e s1 a). apply bl_lift.
    Qed.
    Lemma bl_prepare i s : prepare H e i (sp s) = ost (prepare H e i s).
    Proof.
      unfold prepare. apply bl_bind. apply bl_lift. intros cl s1. destruct (cl_topo cl).
      - apply bl_fold. intros x s2. change (nd_merged (g_node (sp s2) x)) with (nd_merged (g_node s2 x)). destruct (nd_merged (g_node s2 x)); auto. apply bl_merged.
      - unfold update_connectivity. apply bl_bind. apply bl_lift. intros cl' s2. apply bl_bind; auto. apply bl_topo.
    Qed.
    Lemma bl_update k t s : update_message H k t (sp s) = ost (update_message H k t s).
    Proof.
      unfold update_message. change (nd_merged (g_node (sp s) (t_snd t))) with (nd_merged (g_node s (t_snd t))). destruct (nd_merged _); auto.
      apply bl_bind. rewrite (dep_messages_ext s (sp s)) by auto. apply bl_lift. intros [ms|] s1; auto.
      apply bl_bind. apply bl_lift. intros mg s2. apply bl_bind. change (deref (sp s2) (t_rcv t) (t_snd t) (t_uid t)) with (deref s2 (t_rcv t) (t_snd t) (t_uid t)). apply bl_lift. intros c s3.
      apply bl_bind. apply bl_lift. intros m s4. apply bl_bind. apply bl_set. intros _ s5. destruct (c_msg c); auto. apply bl_bind; auto. apply bl_lift.
    Qed.
    Lemma bl_select l s : select (sp s) l = select s l.
    Proof.
      induction l as [|t l IH]; simpl; auto. rewrite IH.
      replace (can_update (sp s) (t_snd t) (t_deps t)) with (can_update s (t_snd t) (t_deps t)); auto.
      induction (t_deps t) as [|[a u] d IHd]; simpl; auto. rewrite IHd. auto.
    Qed.
    Lemma bl_mp n k m : forall l s, mp_loop H m e n k l (sp s) = ost (mp_loop H m e n k l s).
    Proof.
      induction m as [|m IH]; intros [|t l] s; cbn [mp_loop]; auto. apply bl_bind. rewrite bl_select. apply bl_lift. intros [ready wait] s1. destruct ready; auto.
      apply bl_bind. apply bl_fold. intros x s2. apply bl_bind; auto. apply bl_update. auto.
    Qed.
    Lemma bl_tasks k l : forall v s, loopy_tasks H k l v (sp s) = ost (loopy_tasks H k l v s).
    Proof. induction l as [|t l IH]; intros v s; cbn [loopy_tasks]; auto. apply bl_bind. apply bl_update. intros [x|] s1; auto. Qed.
    Lemma bl_sweep n k bs : forall v s, loopy_sweep H e n k bs v (sp s) = ost (loopy_sweep H e n k bs v s).
    Proof. induction bs as [|b bs IH]; intros v s; cbn [loopy_sweep]; auto. apply bl_bind; auto. apply bl_tasks. Qed.
    Lemma bl_iter n k bs m : forall s, loopy_iter H m e n k bs (sp s) = ost (loopy_iter H m e n k bs s).
    Proof. induction m as [|m IH]; intros s; cbn [loopy_iter]; auto. apply bl_bind. apply bl_sweep. intros v s1. destruct (below_tolerance v); auto. Qed.
    Lemma bl_prop n k is : forall r s, prop_loop H e n k is r (sp s) = ost (prop_loop H e n k is r s).
    Proof.
      induction is as [|i is IH]; intros r s; cbn [prop_loop]; auto. apply bl_bind. apply bl_prepare. intros _ s1. apply bl_bind. apply bl_lift. intros cl s2. apply bl_bind.
      - unfold message_passing. apply bl_bind. apply bl_lift. intros cl' s3. destruct (cl_topo cl'); auto. apply bl_mp.
      - intros tree s3. destruct tree; auto. apply bl_bind; auto. unfold loopy_propagate. apply bl_bind. apply bl_lift. intros cl' s4. apply bl_bind.
        + unfold set_ones. apply bl_fold. intros a s5. apply bl_bind. apply bl_lift. intros v s6. apply bl_fold. intros; apply bl_set.
        + intros _ s5. destruct (cl_topo cl'); auto. apply bl_bind. apply bl_lift. intros bs s6. apply bl_iter.
    Qed.
    Lemma bl_reset s : reset_messages e (sp s) = ost (reset_messages e s).
    Proof. unfold reset_messages. apply bl_fold. intros cl s1. apply bl_fold. intros a s2. apply bl_fold. intros; apply bl_set. Qed.
  End Blind.

  (** the numbers of threads that are more than one are the same number *)
  Lemma check_class e k n n' s s1 : env_ok e -> same_class n n' -> g_pool s = Some 1 -> check_propagation H e k n s = Ret tt s1 -> check_propagation H e k n' s = Ret tt s1.
  Proof.
    intros E SC P Q. destruct (would_need s k) eqn:W; [|unfold check_propagation in *; rewrite W in *; auto].
    destruct (check_parts e k n s s1 E P W Q) as (s2 & s3 & r & Ln & R1 & R2 & ->).
    assert (B : forall m, (if m =? 1 then s else set_pool s (Some m)) = set_pool s (Some m)). { intros m. destruct (Nat.eqb_spec m 1) as [->|]; auto. destruct s; simpl in *. subst. auto. }
    rewrite B in R1. rewrite bl_reset in R1. destruct (reset_messages e s) as [[] t2| | | |] eqn:R0; try discriminate. simpl in R1. injection R1 as <-.
    rewrite bl_prop in R2. destruct (prop_loop H e n k _ _ t2) as [r0 t3| | | |] eqn:R3; try discriminate. simpl in R2. injection R2 as <- <-.
    replace (set_pool (set_last (set_pool t3 (Some n)) (Some r0)) (Some 1)) with (set_pool (set_last (set_pool t3 (Some n')) (Some r0)) (Some 1)) by (destruct t3; auto).
    apply (parts_check e k n' s (set_pool t2 (Some n'))); auto.
    - destruct SC as [->|[_ ?]]; lia.
    - rewrite B, bl_reset, R0. auto.
    - simpl g_cl in R3 |- *. rewrite bl_prop, <- (prop_class e n n' k SC), R3. auto.
  Qed.
End Warm.
