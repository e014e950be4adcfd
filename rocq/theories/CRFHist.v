(** Histories of calls on a conditional random field *)
From Coq Require Import String List Arith Bool Lia Permutation.
From Verif Require Import Res Num Categoric Combs Func FuncProofs GroupProofs FactorProofs FactorApi Special SpecialProofs
  Graph GraphLemmas Clusters Belief Query Gibbs GraphInv EvidInv BeliefInv GraphSpec Hist Train TrainHist Coherent CRF.
Import ListNotations.
Open Scope nat_scope.

(** {1 The part of the graph that a conditional random field never changes} *)
Section Skeleton.
  Context {N : num}.
  Variable H : nat -> func N.
  Notation gst := (gst (N:=N)).
  Implicit Types s : gst.

  Record skel s s' : Prop := {
    sk_vars : g_vars s' = g_vars s;
    sk_all : g_all s' = g_all s;
    sk_ev : g_ev s' = g_ev s;
    sk_dis : forall a b, option_map c_fac (dis s' a b) = option_map c_fac (dis s a b)
  }.
  Definition oskel {B} s (o : out gst B) : Prop := match o with Ret _ s' | Thr s' => skel s s' | _ => True end.
  Lemma skel_refl s : skel s s.
  Proof. constructor; auto. Qed.
  Lemma skel_trans s t u : skel s t -> skel t u -> skel s u.
  Proof. intros [] []. constructor; intros; congruence. Qed.
  Lemma oskel_bind {B D} s (o : out gst B) (f : B -> gst -> out gst D) :
    oskel s o -> (forall b s', skel s s' -> oskel s (f b s')) -> oskel s (obind o f).
  Proof. destruct o; simpl; auto. Qed.
  Lemma oskel_lift {B} s s' (r : res B) : skel s s' -> oskel s (lift r s').
  Proof. destruct r; simpl; auto. Qed.
  Lemma oskel_fold {B} (f : B -> gst -> out gst unit) l : forall s s', skel s s' ->
    (forall b s', skel s s' -> oskel s (f b s')) -> oskel s (ofold f l s').
  Proof. induction l as [|b l IH]; simpl; intros s s' E F; auto. apply oskel_bind; auto. Qed.
  Lemma skel_same s s' s'' : skel s s' -> g_vars s'' = g_vars s' -> g_all s'' = g_all s' -> g_ev s'' = g_ev s' -> (forall a b, dis s'' a b = dis s' a b) -> skel s s''.
  Proof. intros [] A B C D. constructor; intros; congruence. Qed.

  Lemma set_act_msg_skel s s' a b m : skel s s' -> oskel s (set_act_msg s' a b m).
  Proof.
    intros E. unfold set_act_msg. destruct (act s' a b); simpl; auto. eapply skel_same; eauto. intros x y. unfold dis. simpl. unfold fupd. destruct (Nat.eqb_spec x a); subst; auto.
  Qed.
  Lemma set_dis_msg_skel s s' a b m : skel s s' -> oskel s (set_dis_msg s' a b m).
  Proof.
    intros E. unfold set_dis_msg. destruct (dis s' a b) as [c|] eqn:D; simpl; auto. destruct E as [E1 E2 E3 E4]. constructor; auto.
    intros x y. rewrite <- E4. unfold dis in *. simpl. unfold fupd. destruct (Nat.eqb_spec x a); subst; auto. simpl. destruct (Nat.eqb_spec y b); subst; auto. rewrite D. auto.
  Qed.
  Lemma drop_merged_skel s s' a : skel s s' -> skel s (drop_merged s' a).
  Proof. intros E. eapply skel_same; eauto. intros x y. unfold dis. simpl. unfold fupd. destruct (Nat.eqb_spec x a); subst; auto. Qed.
  Lemma set_node_merged_skel s s' a m : skel s s' -> skel s (set_merged s' a m).
  Proof. intros E. eapply skel_same; eauto. intros x y. unfold dis. simpl. unfold fupd. destruct (Nat.eqb_spec x a); subst; auto. Qed.

  Ltac sk :=
    repeat first
      [ assumption | exact I
      | apply set_node_merged_skel; assumption
      | apply drop_merged_skel; assumption
      | match goal with
        | |- oskel _ (obind _ _) => apply oskel_bind; [|intros]
        | |- oskel _ (lift _ _) => apply oskel_lift; assumption
        | |- oskel _ (ofold _ _ _) => apply oskel_fold; [assumption|intros]
        | |- oskel _ (set_act_msg _ _ _ _) => apply set_act_msg_skel; assumption
        | |- oskel _ (set_dis_msg _ _ _ _) => apply set_dis_msg_skel; assumption
        end
      | match goal with |- oskel _ ((let (_, _) := ?x in _) _) => destruct x end
      | match goal with |- oskel _ (match ?x with _ => _ end) => destruct x end
      | match goal with |- oskel _ (if ?x then _ else _) => destruct x end
      | match goal with E : skel ?s ?t |- skel ?s _ => apply (skel_same s t _ E); reflexivity end ].

  Lemma update_merged_skel e a s s' : skel s s' -> oskel s (update_merged H e a s').
  Proof. intros E. unfold update_merged. sk; cbn [oskel]; sk. Qed.
  Lemma topo_loop_skel e nodes : forall acc s s', skel s s' -> oskel s (topo_loop H e nodes acc s').
  Proof. induction nodes; simpl; intros acc s s' E; sk. apply update_merged_skel; auto. apply IHnodes; auto. Qed.
  Lemma update_message_skel k t s s' : skel s s' -> oskel s (update_message H k t s').
  Proof. intros E. unfold update_message. sk. Qed.
  Lemma reset_messages_skel e s s' : skel s s' -> oskel s (reset_messages e s').
  Proof. intros E. unfold reset_messages. sk. Qed.
  Lemma mp_loop_skel n e p k : forall l s s', skel s s' -> oskel s (mp_loop H n e p k l s').
  Proof.
    induction n; simpl; intros l s s' E; destruct l; simpl; auto; sk.
    apply update_message_skel; auto. apply IHn; auto.
  Qed.
  Lemma message_passing_skel e p k i s s' : skel s s' -> oskel s (message_passing H e p k i s').
  Proof. intros E. unfold message_passing. sk. apply mp_loop_skel; auto. Qed.
  Lemma loopy_tasks_skel k l : forall v s s', skel s s' -> oskel s (loopy_tasks H k l v s').
  Proof. induction l; simpl; intros v s s' E; sk. apply update_message_skel; auto. apply IHl; auto. Qed.
  Lemma loopy_sweep_skel e p k l : forall v s s', skel s s' -> oskel s (loopy_sweep H e p k l v s').
  Proof. induction l; simpl; intros v s s' E; sk. apply loopy_tasks_skel; auto. apply IHl; auto. Qed.
  Lemma loopy_iter_skel n e p k bs : forall s s', skel s s' -> oskel s (loopy_iter H n e p k bs s').
  Proof. induction n; simpl; intros s s' E; sk. apply loopy_sweep_skel; auto. apply IHn; auto. Qed.
  Lemma loopy_propagate_skel e p k i s s' : skel s s' -> oskel s (loopy_propagate H e p k i s').
  Proof. intros E. unfold loopy_propagate, set_ones. sk. apply loopy_iter_skel; auto. Qed.
  Lemma prepare_skel e i s s' : skel s s' -> oskel s (prepare H e i s').
  Proof. intros E. unfold prepare, update_connectivity. sk. apply update_merged_skel; auto. apply topo_loop_skel; auto. cbn [oskel]; sk. Qed.
  Lemma prop_loop_skel e p k is : forall r s s', skel s s' -> oskel s (prop_loop H e p k is r s').
  Proof.
    induction is; simpl; intros r s s' E; sk. apply prepare_skel; auto. apply message_passing_skel; auto. apply IHis; auto.
    apply loopy_propagate_skel; auto. apply IHis; auto.
  Qed.
  Lemma propagate_skel e k s s' : skel s s' -> oskel s (propagate H e k s').
  Proof. intros E. unfold propagate. sk. apply reset_messages_skel; auto. apply prop_loop_skel; auto. cbn [oskel]; sk. Qed.
  Lemma set_pool_skel n s s' : skel s s' -> oskel s (set_pool_size n s').
  Proof. intros E. unfold set_pool_size. sk; cbn [oskel]; sk. Qed.
  Lemma scoped_skel {A} n (body : gst -> out gst A) s s' : skel s s' -> (forall s', skel s s' -> oskel s (body s')) -> oskel s (scoped_pool n body s').
  Proof.
    intros E F. unfold scoped_pool. apply oskel_bind. apply set_pool_skel; auto. intros _ t E'. specialize (F t E').
    destruct (body t); cbn [oskel] in *; auto; sk.
  Qed.
  Lemma check_skel e k n s s' : skel s s' -> oskel s (check_propagation H e k n s').
  Proof. intros E. unfold check_propagation. sk. apply scoped_skel; auto. intros. apply propagate_skel; auto. Qed.
  Lemma marginal_query_skel e k v n s s' : skel s s' -> oskel s (marginal_query H e k v n s').
  Proof. intros E. unfold marginal_query. sk. apply check_skel; auto. Qed.
  Lemma joint_skel e g n s s' : skel s s' -> oskel s (get_joint H e g n s').
  Proof. intros E. unfold get_joint. sk. apply check_skel; auto. Qed.

  Lemma make_node_skel e a s s' : skel s s' -> oskel s (make_node H e a s').
  Proof. intros E. unfold make_node. apply oskel_bind. apply update_merged_skel; auto. intros. sk. Qed.
  Lemma make_node_list_skel e l : forall s s', skel s s' -> oskel s (make_node_list H e l s').
  Proof. induction l; simpl; intros s s' E; sk. apply make_node_skel; auto. apply IHl; auto. Qed.
  Lemma make_samples_skel draw e ceil10 c n s s' : skel s s' -> oskel s (make_samples H draw e ceil10 c n s').
  Proof.
    intros E. unfold make_samples. apply scoped_skel; auto. intros t Et. destruct (delta_burn ceil10 c). unfold make_nodes.
    apply oskel_bind. apply make_node_list_skel; auto. intros. sk.
  Qed.

  (** the calls that are public in a conditional random field *)
  Definition crf_query (op : gop) : bool :=
    match op with
    | OMarginal _ _ | OMarginalName _ _ | OMap _ _ | OMapName _ _ | OHiddenMap _ | OJoint _ _ | OJointNames _ _ | OPropagate _ _ | OIters _ => true
    | _ => false
    end.
  Lemma call_skel e op s : crf_query op = true -> oskel s (call H e op s).
  Proof.
    intros A. pose proof (skel_refl s) as E. destruct op; try discriminate A; simpl call; unfold omap;
      try (apply oskel_bind; [|intros; assumption]); auto;
      unfold get_marginal_name, get_map_name, get_marginal,
        get_map, get_hidden_map, get_joint_names; sk;
      auto using marginal_query_skel, check_skel, joint_skel.
    apply scoped_skel; auto. intros. apply propagate_skel; auto. cbn [oskel]; sk.
  Qed.
End Skeleton.

(** {1 Evidences of variables that are already observed} *)
Section Shape.
  Context {N : num} (OK : num_ok N).
  Notation gst := (gst (N:=N)).
  Implicit Types s : gst.
  Implicit Types H : nat -> func N.

  Record shape H s : Prop := {
    sh_vars : NoDup (map vkey (g_vars s));
    sh_made : Forall made (g_vars s);
    sh_ev : forall a k, g_ev s a = Some k -> exists v, var_at s a v /\ k < vsize v;
    sh_dis : forall a b c, dis s a b = Some c -> link H s (g_all s) a b (c_fac c);
    sh_dis_sym : forall a b c, dis s a b = Some c -> exists c', dis s b a = Some c' /\ c_fac c' = c_fac c
  }.
  Lemma core_shape H s : core H s (g_all s) -> shape H s.
  Proof. intros C. constructor; apply C. Qed.

  (** the weights do not matter *)
  Lemma shape_heap H H' s : (forall f, f_group (H' f) = f_group (H f)) -> shape H s -> shape H' s.
  Proof.
    intros G [A B C D E]. constructor; auto. intros a b c Q. destruct (D a b c Q) as (Q1 & Q2 & va & vb & Q3 & Q4 & Q5).
    split; auto. split; auto. exists va, vb. unfold fvars, f_vars in *. rewrite G. auto.
  Qed.
  Lemma shape_skel H s s' : skel s s' -> shape H s -> shape H s'.
  Proof.
    intros [K1 K2 K3 K4] [A B C D E].
    assert (DF : forall a b c, dis s' a b = Some c -> exists c0, dis s a b = Some c0 /\ c_fac c0 = c_fac c).
    { intros a b c Q. pose proof (K4 a b) as X. rewrite Q in X. destruct (dis s a b) as [c0|]; [|discriminate]. injection X as X. eauto. }
    assert (DB : forall a b c, dis s a b = Some c -> exists c0, dis s' a b = Some c0 /\ c_fac c0 = c_fac c).
    { intros a b c Q. pose proof (K4 a b) as X. rewrite Q in X. destruct (dis s' a b) as [c0|]; [|discriminate]. injection X as X. eauto. }
    constructor; try congruence.
    - intros a k. rewrite K3. intros Q. destruct (C a k Q) as (v & V & L). exists v. unfold var_at in *. rewrite K1. auto.
    - intros a b c Q. destruct (DF a b c Q) as (c0 & Q0 & <-). destruct (D a b c0 Q0) as (L1 & L2 & va & vb & L3 & L4 & L5).
      split; auto. rewrite K2. split; auto. exists va, vb. unfold var_at in *. rewrite K1. auto.
    - intros a b c Q. destruct (DF a b c Q) as (c0 & Q0 & <-). destruct (E a b c0 Q0) as (c1 & Q1 & <-).
      destruct (DB b a c1 Q1) as (c2 & Q2 & <-). eauto.
  Qed.

  (** what a change of the value of an observed variable does *)
  Record revalued s s' (a k : nat) : Prop := {
    rv_vars : g_vars s' = g_vars s;
    rv_all : g_all s' = g_all s;
    rv_ev : g_ev s' = fupd (g_ev s) a (Some k);
    rv_dis : forall x y, option_map c_fac (dis s' x y) = option_map c_fac (dis s x y);
    rv_act : forall x y, act s' x y = act s x y;
    rv_cl : g_cl s' = g_cl s;
    rv_pool : g_pool s' = g_pool s;
    rv_iters : g_iters s' = g_iters s
  }.
  Lemma revalued_shape H s s' a k v : revalued s s' a k -> var_at s a v -> k < vsize v -> shape H s -> shape H s'.
  Proof.
    intros R V L Q. assert (Q' : shape H (set_ev s (fupd (g_ev s) a (Some k)))).
    { destruct Q as [A B C D E]. constructor; auto. simpl. intros x j. unfold fupd. destruct (Nat.eqb_spec x a) as [->|]; [|apply C].
      intros [= <-]. eauto. }
    eapply shape_skel; [|exact Q']. constructor; try apply R.
  Qed.

  Lemma observed_locate s v a k : NoDup (map vkey (g_vars s)) -> var_at s a v -> g_ev s a = Some k -> locate s v = Some (a, LEv k).
  Proof.
    intros ND V E. unfold locate. assert (F : find_node s v = Some a). { apply find_node_spec; auto. exists v. auto. } rewrite F, E. auto.
  Qed.
  Lemma node_var_ok s a v : var_at s a v -> node_var s a = Ok v.
  Proof. unfold var_at, node_var, vget. intros ->. auto. Qed.

  (** the messages sent by the variable are those of the objects of the heap; the
      products stored in their receivers are dropped *)
  Lemma revalue H s e a v k0 k : shape H s -> (solids H) -> env_ok e -> var_at s a v -> g_ev s a = Some k0 ->
    if vsize v <=? k then set_evidence H e s v k = Thr s
    else exists s', set_evidence H e s v k = Ret tt s' /\ revalued s s' a k /\ g_last s' = None /\
      (forall x, nd_un (g_node s' x) = nd_un (g_node s x)) /\
      (forall x y, y <> a -> dis s' x y = dis s x y) /\
      (forall x, dis s x a = None -> nd_merged (g_node s' x) = nd_merged (g_node s x)) /\
      (forall x c, dis s x a = Some c -> nd_merged (g_node s' x) = None /\
         exists m, dis s' x a = Some (with_msg c (Some m)) /\ evidence_factor (H (c_fac c)) v k = Ok m).
  Proof.
    intros Q HG E V EV. unfold set_evidence. destruct (Nat.leb_spec (vsize v) k) as [L|L]; auto.
    rewrite (observed_locate s v a k0 (sh_vars _ _ Q) V EV). cbn [obind].
    set (s1 := set_ev s (fupd (g_ev s) a (Some k))).
    destruct (send_loop H s1 a e v k E V L) as (s2 & E2 & F & A & D & M0 & M1).
    - intros x c X. destruct (sh_dis _ _ Q a x c X) as (_ & _ & va & vb & _ & Hb & _). apply var_at_lt in Hb. auto.
    - intros x c X. apply (sh_dis_sym _ _ Q) in X. exact X.
    - intros x c X. destruct (sh_dis_sym _ _ Q _ _ _ X) as (c' & X' & _). split. { apply (sh_dis _ _ Q) in X. apply X. }
      split; eauto. apply (link_evidence H HG s1 (g_all s) x a c v k). intros j w J. eapply nth_error_In; eauto.
      exact (sh_dis _ _ Q _ _ _ X). auto. auto.
    - rewrite E2. cbn [obind]. exists (reset_belief s2). split; auto. destruct F as (F1 & F2 & F3 & F4 & F5 & F6 & F7 & F8).
      splits; auto.
      + constructor; auto. intros x y. destruct (Nat.eq_dec y a) as [->|NE].
        * change (dis s x a) with (dis s1 x a). destruct (dis s1 x a) as [c|] eqn:X.
          -- destruct (M1 x c X) as (_ & m & Y & _). change (dis (reset_belief s2) x a) with (dis s2 x a). rewrite Y. auto.
          -- destruct (M0 x X) as (Y & _). change (dis (reset_belief s2) x a) with (dis s2 x a). rewrite Y. auto.
        * change (dis (reset_belief s2) x y) with (dis s2 x y). rewrite D by auto. auto.
      + intros x X. apply (M0 x X).
  Qed.
End Shape.

(** {1 [setEvidences]} *)
Section SetEvidences.
  Context {N : num} (OK : num_ok N).
  Notation gst := (gst (N:=N)).
  Notation rst := (rst (N:=N)).
  Implicit Types s : rst.
  Implicit Types g : gst.

  (** the evidences after some assignments *)
  Definition assigned (ev : nat -> option nat) (l : list (nat * nat)) : nat -> option nat :=
    fold_left (fun ev p => fupd ev (fst p) (Some (snd p))) l ev.
  Lemma assigned_out l : forall ev a, ~ In a (map fst l) -> assigned ev l a = ev a.
  Proof.
    induction l as [|p l IH]; simpl; intros ev a NI; auto. rewrite IH by tauto. apply fupd_ne. intros ->. tauto.
  Qed.
  Lemma assigned_in l : forall ev a k, NoDup (map fst l) -> In (a, k) l -> assigned ev l a = Some k.
  Proof.
    induction l as [|p l IH]; simpl; intros ev a k ND J; [tauto|]. inversion ND; subst. destruct J as [->|J].
    - rewrite assigned_out by auto. simpl. apply fupd_eq.
    - apply IH; auto.
  Qed.
  Lemma assigned_some l : forall ev a, (forall x k, In (x, k) l -> ev x <> None) -> (assigned ev l a = None <-> ev a = None).
  Proof.
    induction l as [|p l IH]; simpl; intros ev a O; [tauto|]. unfold assigned in *. rewrite IH.
    - unfold fupd. destruct (Nat.eqb_spec a (fst p)); [|tauto]. subst. split; [discriminate|]. intros X. exfalso.
      destruct p as [x k]. apply (O x k); auto.
    - intros x k J. unfold fupd. destruct (Nat.eqb_spec x (fst p)). discriminate. apply (O x k). auto.
  Qed.

  (** a graph whose evidences changed value *)
  Record revalues g g' (ev : nat -> option nat) : Prop := {
    rs_vars : g_vars g' = g_vars g;
    rs_all : g_all g' = g_all g;
    rs_ev : forall a, g_ev g' a = ev a;
    rs_dis : forall x y, option_map c_fac (dis g' x y) = option_map c_fac (dis g x y);
    rs_act : forall x y, act g' x y = act g x y;
    rs_cl : g_cl g' = g_cl g;
    rs_pool : g_pool g' = g_pool g;
    rs_iters : g_iters g' = g_iters g
  }.
  Lemma revalues_refl g : revalues g g (g_ev g).
  Proof. constructor; auto. Qed.

  Definition one_evidence (e : env) (p : nat * nat) s : out rst unit :=
    do (v, s) <- lift (node_var (r_g s) (fst p)) s ;;
    on_g (fun g => set_evidence (r_h s) e g v (snd p)) s.

  (** the value fits the variable of the node *)
  Definition fits g (p : nat * nat) : bool := match nth_error (g_vars g) (fst p) with Some v => snd p <? vsize v | None => false end.

  Lemma one_evidence_ok e p s : shape (r_h s) (r_g s) -> (solids (r_h s)) -> env_ok e -> g_ev (r_g s) (fst p) <> None ->
    if fits (r_g s) p then exists g, one_evidence e p s = Ret tt (set_g s g) /\ revalued (r_g s) g (fst p) (snd p) /\ shape (r_h s) g
    else one_evidence e p s = Thr s.
  Proof.
    intros Q HG E EV. destruct p as [a k]. cbn [fst snd] in *. destruct (g_ev (r_g s) a) as [k0|] eqn:E0; [|congruence].
    destruct (sh_ev _ _ Q a k0 E0) as (v & V & _). unfold fits, one_evidence. cbn [fst snd]. unfold var_at in V. rewrite V.
    rewrite (node_var_ok _ _ _ V). cbn [lift obind]. unfold on_g.
    pose proof (revalue (r_h s) (r_g s) e a v k0 k Q HG E V E0) as R.
    destruct (Nat.ltb_spec k (vsize v)) as [L|L].
    - rewrite (proj2 (Nat.leb_gt _ _) L) in R. destruct R as (g & Eg & R & _). rewrite Eg. exists g. splits; auto.
      eapply revalued_shape; eauto.
    - rewrite (proj2 (Nat.leb_le _ _) L) in R. rewrite R. destruct s; auto.
  Qed.

  (** the assignments are done in order until one does not fit *)
  Fixpoint fitting g (l : list (nat * nat)) : list (nat * nat) :=
    match l with
    | [] => []
    | p :: r => if fits g p then p :: fitting g r else []
    end.
  Lemma fitting_all g l : forallb (fits g) l = true -> fitting g l = l.
  Proof. induction l as [|p l IH]; simpl; auto. destruct (fits g p); simpl; [|discriminate]. intros Q. rewrite IH; auto. Qed.
  Lemma fitting_vars g g' l : g_vars g' = g_vars g -> fitting g' l = fitting g l /\ forallb (fits g') l = forallb (fits g) l.
  Proof.
    intros E. assert (F : forall p, fits g' p = fits g p) by (intros p; unfold fits; rewrite E; auto).
    induction l as [|p l [IH1 IH2]]; simpl; auto. rewrite F, IH1, IH2. auto.
  Qed.

  Lemma evidences_loop e l : forall s, shape (r_h s) (r_g s) -> (solids (r_h s)) -> env_ok e ->
    (forall p, In p l -> g_ev (r_g s) (fst p) <> None) ->
    exists g, ofold (one_evidence e) l s = (if forallb (fits (r_g s)) l then Ret tt (set_g s g) else Thr (set_g s g)) /\
      revalues (r_g s) g (assigned (g_ev (r_g s)) (fitting (r_g s) l)) /\ shape (r_h s) g /\
      (l = [] -> g = r_g s).
  Proof.
    induction l as [|p l IH]; intros s Q HG E O.
    - exists (r_g s). simpl. splits; auto. destruct s; auto. apply revalues_refl.
    - cbn [ofold]. pose proof (one_evidence_ok e p s Q HG E (O p (or_introl eq_refl))) as P1. cbn [forallb fitting].
      destruct (fits (r_g s) p) eqn:F; cbn [andb].
      + destruct P1 as (g1 & E1 & R1 & Q1). rewrite E1. cbn [obind].
        destruct (IH (set_g s g1)) as (g2 & E2 & R2 & Q2 & _); auto.
        { intros q J. cbn [r_g set_g]. rewrite (rv_ev _ _ _ _ R1). unfold fupd. destruct (fst q =? fst p). discriminate. apply O. right; auto. }
        cbn [r_g set_g r_h] in *. destruct (fitting_vars (r_g s) g1 l (rv_vars _ _ _ _ R1)) as [F1 F2]. rewrite F1 in R2. rewrite F2 in E2.
        exists g2. splits; auto; [|discriminate].
        destruct R1, R2. constructor; try congruence.
        { intros a. rewrite rs_ev0. cbn [assigned fold_left]. rewrite rv_ev0. auto. }
      + rewrite P1. cbn [obind]. exists (r_g s). splits; auto; try discriminate. destruct s; auto. apply revalues_refl.
  Qed.

  Lemma evidence_order_in e g a : env_ok e -> (forall a k, g_ev g a = Some k -> a < gsize g) -> (In a (evidence_order e g) <-> g_ev g a <> None).
  Proof.
    intros E L. unfold evidence_order. rewrite ord_In, keys_In by auto. split. intros [_ [k ->]]. discriminate.
    intros Q. destruct (g_ev g a) as [k|] eqn:X; [|congruence]. split; eauto.
  Qed.
  Lemma evidence_order_nd e g : env_ok e -> NoDup (evidence_order e g).
  Proof. intros E. apply ord_NoDup, keys_NoDup; auto. Qed.
  Lemma shape_lt H g a k : shape H g -> g_ev g a = Some k -> a < gsize g.
  Proof. intros Q E. destruct (sh_ev _ _ Q a k E) as (v & V & _). eapply var_at_lt; eauto. Qed.

  Lemma set_evidences_ok e values s : shape (r_h s) (r_g s) -> (solids (r_h s)) -> env_ok e ->
    if length values =? length (evidence_order e (r_g s)) then
      exists g, set_evidences e values s =
        (if forallb (fits (r_g s)) (combine (evidence_order e (r_g s)) values) then Ret tt (set_g s g) else Thr (set_g s g)) /\
        revalues (r_g s) g (assigned (g_ev (r_g s)) (fitting (r_g s) (combine (evidence_order e (r_g s)) values))) /\ shape (r_h s) g
    else set_evidences e values s = Thr s.
  Proof.
    intros Q HG E. unfold set_evidences. destruct (length values =? length (evidence_order e (r_g s))); auto.
    destruct (evidences_loop e (combine (evidence_order e (r_g s)) values) s Q HG E) as (g & Eg & R & Q' & _).
    - intros [a k] J. apply in_combine_l in J. apply (evidence_order_in e) in J; auto. intros b j. eapply shape_lt; eauto.
    - exists g. splits; auto.
  Qed.
End SetEvidences.

(** {1 Construction} *)
Section Ctor.
  Context {N : num} (OK : num_ok N).
  Notation gst := (gst (N:=N)).
  Notation rst := (rst (N:=N)).
  Implicit Types s : rst.

  Lemma replace_fac s b b' : replace_if_needed s b = Ok b' -> bt_fac b' = bt_fac b.
  Proof.
    unfold replace_if_needed. destruct (f_vars (r_h s (bt_fac b))) as [|v [|w [|]]]; try (intros [= <-]; auto; fail).
    - destruct (observed_at (r_g s) v); intros [= <-]; auto.
    - destruct (observed_at (r_g s) v) as [o|], (observed_at (r_g s) w) as [o'|]; try discriminate; try (intros [= <-]; auto; fail).
      + destruct (find_node (r_g s) w); [|discriminate]. intros Q. apply rbind_ok in Q as (fd & _ & Q). apply rbind_ok in Q as (vo & _ & [= <-]). auto.
      + destruct (find_node (r_g s) v); [|discriminate]. intros Q. apply rbind_ok in Q as (fd & _ & Q). apply rbind_ok in Q as (vo & _ & [= <-]). auto.
  Qed.
  Lemma rmap_F2 {A B} (f : A -> res B) l : forall l', rmap f l = Ok l' -> Forall2 (fun a b => f a = Ok b) l l'.
  Proof.
    induction l as [|a l IH]; simpl; intros l'. intros [= <-]; constructor.
    intros Q. apply rbind_ok in Q as (b & Eb & Q). apply rbind_ok in Q as (r & Er & [= <-]). constructor; auto.
  Qed.
  Lemma replace_bases s t t' : replace_tuner s t = Ok t' -> Forall2 (fun b b' => replace_if_needed s b = Ok b') (bases t) (bases t').
  Proof.
    destruct t as [b|l]; simpl; intros Q; apply rbind_ok in Q as (x & Ex & [= <-]); simpl. constructor; auto. apply rmap_F2; auto.
  Qed.
  Lemma F2_map {A B} (f : A -> B) l l' : Forall2 (fun a b => f b = f a) l l' -> map f l' = map f l.
  Proof. intros F. induction F; simpl; congruence. Qed.
  Lemma replace_clusters s ts : rmap (replace_tuner s) (r_tuners s) = Ok ts -> tunable_clusters (set_tuners s ts) = tunable_clusters s.
  Proof.
    intros Q. apply rmap_F2 in Q. unfold tunable_clusters. cbn [r_tuners set_tuners]. apply F2_map.
    eapply Forall2_imp; [|exact Q]. intros t t' E. simpl. apply replace_bases in E. apply F2_map. eapply Forall2_imp; [|exact E]. simpl. intros b b' X. eapply replace_fac; eauto.
  Qed.

  (** only the lists of factors of the tuners matter *)
  Lemma coh_tuners P s ts : tunable_clusters (set_tuners s ts) = tunable_clusters s -> coh P s -> coh P (set_tuners s ts).
  Proof.
    intros E [I V C]. constructor; auto. destruct I. constructor; try assumption; rewrite E; auto.
  Qed.

  Lemma unobserved_none s v : (forall a, g_ev (r_g s) a = None) -> unobserved s v.
  Proof.
    intros E. unfold unobserved, sp_observed. replace (sp_ev (spec_of (r_g s)) (vname v, vsize v)) with (@None nat). destruct (sp_known _ v); auto.
    simpl. destruct (find_pos _ _); auto.
  Qed.
  (** insertions keep the variables without evidence *)
  Definition blank s : Prop := forall v, unobserved s v.

  Lemma absorb_start e src copy s : (forall f, built (r_h src f)) -> env_ok e -> rinv src ->
    (do (_, s) <- absorb_const (e_ord e 0 (r_const src)) copy (r_empty (r_h src) (r_top src)) ;;
     absorb_clusters copy (tunable_clusters src) s) = Ret tt s -> coh True s /\ blank s.
  Proof.
    intros Hb E I Q.
    assert (C0 : coh True (r_empty (r_h src) (r_top src))) by (apply coh_empty; auto).
    assert (B0 : blank (r_empty (r_h src) (r_top src))). { intros v. apply unobserved_none. reflexivity. }
    pose proof (absorb_const_coh True _ (e_ord e 0 (r_const src)) copy C0) as P1.
    assert (O1 : forall f, In f (e_ord e 0 (r_const src)) -> object (r_empty (r_h src) (r_top src)) f).
    { intros f J. apply ord_In in J; auto. apply (ri_top _ I). apply (ri_in _ I). apply in_or_app; auto. }
    specialize (P1 O1). destruct (absorb_const _ copy _) as [[] s1|s1| | |]; cbn [obind ocoh] in *; try discriminate.
    destruct P1 as [C1 L1 U1].
    assert (B1 : blank s1) by (intros v; apply U1; auto).
    pose proof (absorb_clusters_coh True s1 copy (tunable_clusters src) C1) as P2. rewrite Q in P2. cbn [ocoh] in P2.
    destruct P2 as [C2 L2 U2].
    - intros c f Jc Jf. eapply expo_le; [exact L1|]. assert (J : In f (concat (tunable_clusters src))) by (apply in_concat; eauto).
      split. apply (ri_top _ I). apply (ri_in _ I). apply in_or_app. right. apply (ri_tun _ I); auto. apply (ri_exp _ I). auto.
    - intros c f _ _ v _. apply B1.
    - split; auto. intros v. apply U2. auto.
  Qed.

  Lemma set_ev_coh P s e v k : coh P s -> env_ok e ->
    match on_g (fun g => set_evidence (r_h s) e g v k) s with Ret _ s' | Thr s' => coh P s' | _ => True end.
  Proof.
    intros C E. pose proof (rcall_coh P e (RGraph (OSet v k)) s C eq_refl) as Q. cbn [rcall careful] in Q.
    assert (T : match on_g (call (r_h s) e (OSet v k)) s with Ret _ s' | Thr s' => coh P s' | _ => True end).
    { apply Q; auto. split; simpl; auto. }
    revert T. unfold on_g, call, omap. destruct (set_evidence (r_h s) e (r_g s) v k); simpl; auto.
  Qed.
  Lemma src_evidences_coh P e (src : rst) (l : list nat) : env_ok e -> forall s s', coh P s ->
    ofold (fun a s =>
             do (v, s) <- lift (node_var (r_g src) a) s ;;
             match g_ev (r_g src) a with
             | None => Undef
             | Some k =>
                 do (w, s) <- lift (find_variable (r_g s) (vname v)) s ;;
                 on_g (fun g => set_evidence (r_h s) e g w k) s
             end) l s = Ret tt s' -> coh P s'.
  Proof.
    intros E. induction l as [|a l IH]; cbn [ofold]; intros s s' C Q. injection Q as <-; auto.
    destruct (node_var (r_g src) a) as [v| | | |]; cbn [lift obind] in Q; try discriminate.
    destruct (g_ev (r_g src) a) as [k|]; [|discriminate].
    destruct (find_variable (r_g s) (vname v)) as [w| | | |]; cbn [lift obind] in Q; try discriminate.
    pose proof (set_ev_coh P s e w k C E) as X. destruct (on_g _ s) as [[] s1|s1| | |]; cbn [obind] in *; try discriminate. eauto.
  Qed.

  (** a model just constructed is coherent *)
  Lemma crf_ctor_coh e src copy c s : (forall f, built (r_h src f)) -> env_ok e -> rinv src ->
    crf_ctor e src copy = Ret c s -> coh True s /\ c_r c = s /\ c_pos c = find_positions (g_vars (r_g src)) (observed_order e (r_g src)).
  Proof.
    intros Hb E I. unfold crf_ctor, crf_absorb. destruct (keys (gsize (r_g src)) (g_ev (r_g src))) eqn:K; [discriminate|].
    pose proof (absorb_start e src copy) as A.
    destruct (absorb_const _ copy _) as [[] s1|s1| | |]; cbn [obind] in *; try discriminate.
    destruct (absorb_clusters copy (tunable_clusters src) s1) as [[] s2|s2| | |] eqn:E2; cbn [obind] in *; try discriminate.
    destruct (A s2 Hb E I eq_refl) as [C2 _].
    match goal with |- context [ofold ?f ?l s2] => destruct (ofold f l s2) as [[] s3|s3| | |] eqn:E3 end; cbn [obind] in *; try discriminate.
    apply (src_evidences_coh True) in E3; auto.
    destruct (rmap (replace_tuner s3) (r_tuners s3)) as [ts| | | |] eqn:ET; cbn [lift obind]; try discriminate.
    intros [= <- <-]. splits; auto. apply coh_tuners; auto. apply replace_clusters; auto.
  Qed.
End Ctor.

(** {1 Histories} *)
Section CHist.
  Context {N : num} (OK : num_ok N).
  Notation gst := (gst (N:=N)).
  Notation rst := (rst (N:=N)).
  Notation crf := (crf (N:=N)).
  Implicit Types s : rst.

  (** the calls on a conditional random field (ConditionalRandomField.h:20-95) *)
  Inductive cop :=
  | CEv (values : list nat)                                   (** setEvidences *)
  | CQuery (op : gop)                                         (** the queries, see [crf_query] *)
  | CWeights (ws : list N)                                    (** setWeights *)
  | COnes                                                     (** set_ones *)
  | CGradient (es : nat -> env) (it : titer) (threads : nat)  (** getWeightsGradient *)
  | CSamples (draw : nat -> nat -> N) (ceil10 : nat -> nat) (ctx : sctx) (threads : nat)  (** makeSamples *)
  | CTrain (draw : nat -> nat -> nat -> N) (floorf : N -> nat) (ceil10 : nat -> nat) (es : nat -> env) (ctx : sctx) (percentage : N) (threads : nat).
                                                              (** makeTrainSet *)
  Inductive canswer := CUnit | CList (l : list N) | CSet (l : list (list nat)) | CAns (a : answer (N:=N)).
  Definition cmapo {A} (f : A -> canswer) (o : out rst A) : out rst canswer := do (a, s) <- o ;; Ret (f a) s.

  Definition ccall (e : env) (pos : list nat) (op : cop) s : out rst canswer :=
    match op with
    | CEv values => cmapo (fun _ => CUnit) (set_evidences e values s)
    | CQuery op => cmapo CAns (on_g (call (r_h s) e op) s)
    | CWeights ws => cmapo (fun _ => CUnit) (set_weights ws s)
    | COnes => cmapo (fun _ => CUnit) (set_all_ones s)
    | CGradient es it n => cmapo CList (scoped n (crf_gradient es pos it) s)
    | CSamples draw ceil10 ctx n => cmapo CSet (on_g (make_samples (r_h s) draw e ceil10 ctx n) s)
    | CTrain draw floorf ceil10 es ctx p n => cmapo CSet (make_crf_train_set draw floorf ceil10 e es ctx p n s)
    end.
  Definition cok (op : cop) : Prop :=
    match op with
    | CQuery op => crf_query op = true
    | CGradient es _ _ | CTrain _ _ _ es _ _ _ => forall k, env_ok (es k)
    | _ => True
    end.

  (** the conditional random fields: made from a random field, copies, and what
      the calls give *)
  Inductive creach : crf -> Prop :=
  | CR_field h top src e copy c s : (forall f, built (h f)) -> rreach h top any src -> env_ok e -> crf_ctor e src copy = Ret c s -> creach c
  | CR_copy c0 e c s : creach c0 -> env_ok e -> crf_ctor e (c_r c0) false = Ret c s -> creach c
  | CR_ret c e op a s : creach c -> cok op -> env_ok e -> ccall e (c_pos c) op (c_r c) = Ret a s -> creach (mkC s (c_pos c))
  | CR_thr c e op s : creach c -> cok op -> env_ok e -> ccall e (c_pos c) op (c_r c) = Thr s -> creach (mkC s (c_pos c)).

  (** what no call changes *)
  Record frozen s s' : Prop := {
    fz_top : r_top s' = r_top s;
    fz_group : forall f, f_group (r_h s' f) = f_group (r_h s f);
    fz_const : r_const s' = r_const s;
    fz_tun : r_tun s' = r_tun s;
    fz_tuners : r_tuners s' = r_tuners s;
    fz_vars : g_vars (r_g s') = g_vars (r_g s);
    fz_all : g_all (r_g s') = g_all (r_g s);
    fz_obs : forall a, g_ev (r_g s') a = None <-> g_ev (r_g s) a = None
  }.
  Lemma frozen_refl s : frozen s s.
  Proof. constructor; auto; tauto. Qed.
  Lemma frozen_trans s t u : frozen s t -> frozen t u -> frozen s u.
  Proof. intros [] []. constructor; try congruence. intros a. rewrite fz_obs1. auto. Qed.

  Record cinv s : Prop := {
    ci_r : rinv s;
    ci_shape : shape (r_h s) (r_g s)
  }.
  Lemma cinv_good s : cinv s -> solids (r_h s).
  Proof. intros I. apply built_solids. apply I. Qed.
  Record cstp s s' : Prop := { cp_inv : cinv s'; cp_fz : frozen s s' }.
  Definition ocst {B} s (o : out rst B) : Prop := match o with Ret _ s' | Thr s' => cstp s s' | _ => True end.
  Lemma cstp_refl s : cinv s -> cstp s s.
  Proof. intros I. split; auto. apply frozen_refl. Qed.
  Lemma cstp_trans s t u : cstp s t -> cstp t u -> cstp s u.
  Proof. intros [A B] [C D]. split; auto. eapply frozen_trans; eauto. Qed.
  Lemma ocst_bind {B D} s (o : out rst B) (f : B -> rst -> out rst D) :
    ocst s o -> (forall b s', cstp s s' -> ocst s (f b s')) -> ocst s (obind o f).
  Proof. destruct o; simpl; auto. Qed.
  Lemma ocst_lift {B} s s' (r : res B) : cstp s s' -> ocst s (lift r s').
  Proof. destruct r; simpl; auto. Qed.
  Lemma ocst_from {B} s t (o : out rst B) : cstp s t -> ocst t o -> ocst s o.
  Proof. intros E. destruct o; simpl; auto; intros F; eapply cstp_trans; eauto. Qed.
  Lemma ocst_map {B} s (f : B -> canswer) o : ocst s o -> ocst s (cmapo f o).
  Proof. destruct o; simpl; auto. Qed.

  Lemma on_g_skel {B} s (m : gst -> out gst B) : cinv s -> oskel (r_g s) (m (r_g s)) -> ocst s (on_g m s).
  Proof.
    intros I Q. unfold on_g. assert (K : forall g, skel (r_g s) g -> cstp s (set_g s g)).
    { intros g [K1 K2 K3 K4]. split.
      - split. apply step_g; auto. apply I. cbn [r_h r_g set_g]. apply (shape_skel _ (r_g s)). constructor; auto. apply I.
      - constructor; auto; cbn [r_g set_g]. rewrite K3. tauto. }
    destruct (m (r_g s)); simpl in *; auto.
  Qed.
  Lemma revalues_frozen s g l : revalues (r_g s) g (assigned (g_ev (r_g s)) l) -> (forall p, In p l -> g_ev (r_g s) (fst p) <> None) ->
    shape (r_h s) g -> cinv s -> cstp s (set_g s g).
  Proof.
    intros R O Q I. split.
    - split; auto. apply step_g. apply I. apply R. apply R.
    - constructor; auto; cbn [r_g set_g]. apply R. apply R. intros a. rewrite (rs_ev _ _ _ R). apply assigned_some.
      intros x k J. apply (O (x, k)). auto.
  Qed.
  Lemma fitting_in g l p : In p (fitting (N:=N) g l) -> In p l.
  Proof. induction l as [|q l IH]; simpl; auto. destruct (fits g q); simpl; [|tauto]. intros [->|J]; auto. Qed.
  Lemma one_evidence_cst e p s : cinv s -> env_ok e -> g_ev (r_g s) (fst p) <> None -> ocst s (one_evidence e p s).
  Proof.
    intros I E O. pose proof (one_evidence_ok e p s (ci_shape _ I) (cinv_good s I) E O) as Q. destruct (fits (r_g s) p).
    - destruct Q as (g & -> & R & Q). cbn [ocst]. apply (revalues_frozen s g [p]); auto.
      destruct R. constructor; auto. intros a. simpl. rewrite rv_ev0. auto. intros q [<-|[]]. auto.
    - rewrite Q. apply cstp_refl; auto.
  Qed.
  Lemma evidences_cst e l : env_ok e -> forall s, cinv s -> (forall p, In p l -> g_ev (r_g s) (fst p) <> None) -> ocst s (ofold (one_evidence e) l s).
  Proof.
    intros E. induction l as [|p l IH]; cbn [ofold]; intros s I O. apply cstp_refl; auto. apply ocst_bind. apply one_evidence_cst; auto. apply O. left; auto.
    intros _ s1 S1. eapply ocst_from. exact S1. apply IH. apply S1. intros q J. rewrite (fz_obs _ _ (cp_fz _ _ S1)). apply O. right; auto.
  Qed.
  Lemma cinv_lt s a k : cinv s -> g_ev (r_g s) a = Some k -> a < gsize (r_g s).
  Proof. intros I. eapply shape_lt. apply I. Qed.
  Lemma set_evidences_cst e values s : cinv s -> env_ok e -> ocst s (set_evidences e values s).
  Proof.
    intros I E. unfold set_evidences. destruct (_ =? _); [|apply cstp_refl; auto]. apply (evidences_cst e); auto.
    intros [a k] J. apply in_combine_l in J. apply (evidence_order_in e) in J; auto. intros b j. apply cinv_lt; auto.
  Qed.
  Lemma set_weights_cst ws s : cinv s -> ocst s (set_weights ws s).
  Proof.
    intros I. destruct (Nat.eq_dec (length ws) (length (r_tuners s))) as [L|L].
    2:{ unfold set_weights. apply Nat.eqb_neq in L. rewrite L. apply cstp_refl; auto. }
    pose proof (set_weights_step s ws (ci_r _ I)) as ST. destruct (set_weights_ok s ws (ci_r _ I) L) as (h' & E & P1 & P2).
    rewrite E in *. cbn [ocst ostep] in *.
    assert (G : forall f, f_group (h' f) = f_group (r_h s f)).
    { intros f. destruct (in_dec Nat.eq_dec f (concat (tunable_clusters s))) as [J|J]; [|rewrite P2; auto].
      apply in_concat in J as (c & Jc & Jf). apply In_nth_error in Jc as (k & Hc).
      destruct (nth_error ws k) as [w|] eqn:Hw. rewrite (P1 k c w f); auto. exfalso. apply nth_error_None in Hw.
      assert (k < length (tunable_clusters s)) by (apply nth_error_Some; congruence). unfold tunable_clusters in H. rewrite map_length in H. lia. }
    split.
    - split. apply ST. cbn [r_h r_g set_g set_h]. eapply shape_heap; [exact G|]. eapply shape_skel; [|apply I]. constructor; auto.
    - constructor; auto; tauto.
  Qed.
  Lemma set_all_ones_cst s : cinv s -> ocst s (set_all_ones s).
  Proof. intros I. unfold set_all_ones. apply ocst_bind. apply ocst_lift, cstp_refl; auto. intros ws s1 S1. eapply ocst_from. exact S1. apply set_weights_cst. apply S1. Qed.

  Lemma sample_evidences_cst e pos comb s : cinv s -> env_ok e -> ocst s (sample_evidences e pos comb s).
  Proof.
    intros I E. unfold sample_evidences. set (ks := evidence_order e (r_g s)).
    assert (O : forall p, In p (combine (seq 0 (length ks)) ks) -> g_ev (r_g s) (snd p) <> None).
    { intros [j a] J. apply in_combine_r in J. apply (evidence_order_in e) in J; auto. intros b i. apply cinv_lt; auto. }
    revert O. generalize (combine (seq 0 (length ks)) ks). clear ks. intros l. revert s I. induction l as [|[j a] l IH]; cbn [ofold fst snd]; intros s I O.
    apply cstp_refl; auto. apply ocst_bind; cycle 1.
    - intros _ s1 S1. eapply ocst_from. exact S1. apply IH. apply S1. intros q J. rewrite (fz_obs _ _ (cp_fz _ _ S1)). apply O. right; auto.
    - assert (Oa : g_ev (r_g s) a <> None) by (apply (O (j, a)); left; auto).
      destruct (node_var (r_g s) a) as [v| | | |] eqn:Ev; cbn [lift obind ocst]; auto; try (apply cstp_refl; auto).
      destruct (vget pos j) as [i| | | |]; cbn [lift obind ocst]; auto; try (apply cstp_refl; auto).
      destruct (vget comb i) as [x| | | |]; cbn [lift obind ocst]; auto; try (apply cstp_refl; auto).
      pose proof (one_evidence_cst e (a, x) s I E Oa) as Q. unfold one_evidence in Q. cbn [fst snd] in Q. rewrite Ev in Q. exact Q.
  Qed.
  Lemma crf_betas_cst es pos coeff samples : (forall k, env_ok (es k)) -> forall k betas s, cinv s -> ocst s (crf_betas es pos coeff k samples betas s).
  Proof.
    intros E. induction samples as [|comb rest IH]; cbn [crf_betas]; intros k betas s I. apply cstp_refl; auto.
    apply ocst_bind. apply sample_evidences_cst; auto. intros _ s1 S1. apply ocst_bind.
    { eapply ocst_from. exact S1. apply on_g_skel. apply S1. apply propagate_skel, skel_refl. }
    intros _ s2 S2. destruct (g_pool (r_g s2)); auto. apply ocst_bind. apply ocst_lift; auto. intros bs s3 S3.
    eapply ocst_from. exact S3. apply IH. apply S3.
  Qed.
  Lemma crf_gradient_cst es pos it s : (forall k, env_ok (es k)) -> cinv s -> ocst s (crf_gradient es pos it s).
  Proof.
    intros E I. unfold crf_gradient. destruct (g_pool (r_g s)); [|apply cstp_refl; auto].
    apply ocst_bind. apply ocst_lift, cstp_refl; auto. intros samples s1 S1. apply ocst_bind. apply ocst_lift; auto. intros al s2 S2.
    apply ocst_bind. eapply ocst_from. exact S2. apply crf_betas_cst; auto. apply S2. intros bs s3 S3. exact S3.
  Qed.
  Lemma scoped_cst {B} s n (body : rst -> out rst B) : cinv s -> (forall s', cinv s' -> ocst s' (body s')) -> ocst s (scoped n body s).
  Proof.
    intros I F. unfold scoped. apply ocst_bind. apply on_g_skel; auto. apply set_pool_skel, skel_refl.
    intros _ s1 S1. pose proof (F s1 (cp_inv _ _ S1)) as Q.
    assert (K : forall s2, cstp s1 s2 -> cstp s (set_g s2 (set_pool (r_g s2) (Some 1)))).
    { intros s2 S2. eapply cstp_trans. eapply cstp_trans. exact S1. exact S2.
      pose proof (on_g_skel s2 (fun g => Ret tt (set_pool g (Some 1))) (cp_inv _ _ S2)) as X. apply X. constructor; auto. }
    destruct (body s1); simpl in *; auto.
  Qed.

  Lemma emplace_cst draw ceil10 es ctx n k ev s : (forall k, env_ok (es k)) -> cinv s -> ocst s (emplace_samples draw ceil10 es ctx n k ev s).
  Proof.
    intros E I. unfold emplace_samples. apply ocst_bind. apply set_evidences_cst; auto. intros _ s1 S1. eapply ocst_from. exact S1.
    apply on_g_skel. apply S1. apply make_samples_skel, skel_refl.
  Qed.
  Lemma all_loop_cst body cs : (forall k c s, cinv s -> ocst s (body k c s)) -> forall n acc s, cinv s -> ocst s (all_loop body n cs acc s).
  Proof.
    intros B. induction cs as [|c cs IH]; cbn [all_loop]; intros n acc s I. apply cstp_refl; auto. apply ocst_bind; auto.
    intros x s1 S1. eapply ocst_from. exact S1. apply IH. apply S1.
  Qed.
  Lemma some_loop_cst body delta max : (forall k c s, cinv s -> ocst s (body k c s)) ->
    forall fuel n k r acc s, cinv s -> ocst s (some_loop body fuel n delta max k r acc s).
  Proof.
    intros B. induction fuel as [|fuel IH]; cbn [some_loop]; intros n k r acc s I; destruct (k <? max); try (apply cstp_refl; auto; fail). exact Logic.I.
    apply ocst_bind. apply ocst_lift, cstp_refl; auto. intros c s1 S1. apply ocst_bind. eapply ocst_from. exact S1. apply B. apply S1.
    intros x s2 S2. destruct (max <=? k + delta); auto. apply ocst_bind. apply ocst_lift; auto. intros r' s3 S3. eapply ocst_from. exact S3. apply IH. apply S3.
  Qed.
  Lemma train_cst draw floorf ceil10 e es ctx p n s : (forall k, env_ok (es k)) -> cinv s -> ocst s (make_crf_train_set draw floorf ceil10 e es ctx p n s).
  Proof.
    intros E I. unfold make_crf_train_set. destruct (_ || _). apply cstp_refl; auto. apply ocst_bind. apply ocst_lift, cstp_refl; auto.
    intros g s1 S1. destruct (neqb n1 p).
    - apply ocst_bind. apply ocst_lift; auto. intros cs s2 S2. eapply ocst_from. exact S2. apply all_loop_cst. 2: apply S2. intros. apply emplace_cst; auto.
    - destruct (floorf _); simpl; auto. eapply ocst_from. exact S1. apply (some_loop_cst _ _ _ (fun k c s => emplace_cst draw ceil10 es ctx n k c s E)). apply S1.
  Qed.

  Theorem ccall_cst e pos op s : cinv s -> cok op -> env_ok e -> ocst s (ccall e pos op s).
  Proof.
    intros I K E. destruct op; cbn [ccall cok] in *; apply ocst_map.
    - apply set_evidences_cst; auto.
    - apply on_g_skel; auto. apply call_skel; auto.
    - apply set_weights_cst; auto.
    - apply set_all_ones_cst; auto.
    - apply scoped_cst; auto. intros. apply crf_gradient_cst; auto.
    - apply on_g_skel; auto. apply make_samples_skel, skel_refl.
    - apply train_cst; auto.
  Qed.
  Lemma coh_cinv P s : coh P s -> cinv s.
  Proof. intros C. split. apply C. apply core_shape. apply C. Qed.
  Theorem creach_inv c : creach c -> cinv (c_r c).
  Proof.
    intros R. induction R as [h top src e copy c s Hb R E Q|c0 e c s R IH E Q|c e op a s R IH K E Q|c e op s R IH K E Q].
    - pose proof (rreach_inv h top any src Hb R) as I. apply crf_ctor_coh in Q as (C & -> & _); auto. eapply coh_cinv; eauto. apply I.
    - apply crf_ctor_coh in Q as (C & -> & _); auto. eapply coh_cinv; eauto. apply (ci_r _ IH). apply IH.
    - pose proof (ccall_cst e (c_pos c) op (c_r c) IH K E) as X. rewrite Q in X. apply X.
    - pose proof (ccall_cst e (c_pos c) op (c_r c) IH K E) as X. rewrite Q in X. apply X.
  Qed.
End CHist.
