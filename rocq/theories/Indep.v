(** The result of a propagation does not depend on the order in which the tasks
    of a batch are executed *)
From Coq Require Import String List Arith Bool Lia Permutation Relations.
From Verif Require Import Res Num Categoric Func FuncProofs GroupProofs FactorProofs FactorApi Special SpecialProofs
  Graph GraphLemmas Clusters Belief Query GraphInv EvidInv BeliefInv BPRun.
Import ListNotations.
Open Scope nat_scope.

Section Indep.
  Context {N : num} (OK : num_ok N).
  Variable H : nat -> func N.
  Notation gst := (gst (N:=N)).
  Implicit Types s : gst.

  (** {1 Equal states}

      The state contains functions: two states are equal when these are equal
      at every point. *)
  Record geq s s' : Prop := {
    ge_vars : g_vars s' = g_vars s;
    ge_next : g_next s' = g_next s;
    ge_cl : g_cl s' = g_cl s;
    ge_all : g_all s' = g_all s;
    ge_last : g_last s' = g_last s;
    ge_iters : g_iters s' = g_iters s;
    ge_pool : g_pool s' = g_pool s;
    ge_ev : forall a, g_ev s' a = g_ev s a;
    ge_act : forall a b, act s' a b = act s a b;
    ge_dis : forall a b, dis s' a b = dis s a b;
    ge_un : forall a, nd_un (g_node s' a) = nd_un (g_node s a);
    ge_merged : forall a, nd_merged (g_node s' a) = nd_merged (g_node s a)
  }.
  Lemma geq_refl s : geq s s.
  Proof. constructor; auto. Qed.
  Lemma geq_sym s s' : geq s s' -> geq s' s.
  Proof. intros E. constructor; intros; symmetry; apply E. Qed.
  Lemma geq_trans s1 s2 s3 : geq s1 s2 -> geq s2 s3 -> geq s1 s3.
  Proof. intros A B. constructor; intros; (etransitivity; [apply B|apply A]). Qed.

  (** when the first computation returns, the second returns the same *)
  Definition sim {A} (o o' : out gst A) : Prop :=
    match o with Ret a s => exists s', o' = Ret a s' /\ geq s s' | _ => True end.
  Lemma sim_ret {A} (a : A) s s' : geq s s' -> sim (Ret a s) (Ret a s').
  Proof. intros E. exists s'. auto. Qed.
  Lemma sim_bind {A B} (o o' : out gst A) (f f' : A -> gst -> out gst B) : sim o o' ->
    (forall a s s', o = Ret a s -> geq s s' -> sim (f a s) (f' a s')) -> sim (obind o f) (obind o' f').
  Proof. destruct o; simpl; auto. intros (s' & -> & E) F. simpl. apply F; auto. Qed.
  Lemma sim_lift {A} (r r' : res A) s s' : r' = r -> geq s s' -> sim (lift r s) (lift r' s').
  Proof. intros -> E. destruct r; simpl; auto. eexists; eauto. Qed.
  Lemma sim_fold {A} (f f' : A -> gst -> out gst unit) l : (forall x s s', In x l -> geq s s' -> sim (f x s) (f' x s')) ->
    forall s s', geq s s' -> sim (ofold f l s) (ofold f' l s').
  Proof.
    induction l as [|x l IH]; intros F s s' E; simpl. apply sim_ret; auto. apply sim_bind. apply F; simpl; auto.
    intros _ s1 s1' _ E1. apply IH; auto. intros; apply F; simpl; auto.
  Qed.
  Lemma sim_trans {A} (o1 o2 o3 : out gst A) : sim o1 o2 -> sim o2 o3 -> sim o1 o3.
  Proof. destruct o1; simpl; auto. intros (s1 & -> & E1) (s2 & -> & E2). exists s2. split; auto. eapply geq_trans; eauto. Qed.

  (** {1 Readers} *)
  Lemma geq_size s s' : geq s s' -> gsize s' = gsize s.
  Proof. intros E. unfold gsize. rewrite (ge_vars _ _ E). auto. Qed.
  Lemma geq_keys_act s s' a : geq s s' -> keys (gsize s') (nd_act (g_node s' a)) = keys (gsize s) (nd_act (g_node s a)).
  Proof. intros E. rewrite (geq_size _ _ E). apply keys_ext. intros k _. pose proof (ge_act _ _ E a k) as Q. unfold act in Q. rewrite Q. auto. Qed.
  Lemma geq_keys_dis s s' a : geq s s' -> keys (gsize s') (nd_dis (g_node s' a)) = keys (gsize s) (nd_dis (g_node s a)).
  Proof. intros E. rewrite (geq_size _ _ E). apply keys_ext. intros k _. pose proof (ge_dis _ _ E a k) as Q. unfold dis in Q. rewrite Q. auto. Qed.
  Lemma geq_node_var s s' a : geq s s' -> node_var s' a = node_var s a.
  Proof. intros E. unfold node_var. rewrite (ge_vars _ _ E). auto. Qed.
  Lemma geq_get_cl s s' i : geq s s' -> get_cl s' i = get_cl s i.
  Proof. intros E. unfold get_cl. rewrite (ge_cl _ _ E). auto. Qed.
  Lemma geq_gather e s s' a : geq s s' -> gather_unaries H e s' a = gather_unaries H e s a.
  Proof.
    intros E. unfold gather_unaries. rewrite (ge_un _ _ E), (geq_keys_dis _ _ a E). f_equal. apply map_ext. intros b. rewrite (ge_dis _ _ E). auto.
  Qed.
  Lemma rmap_ext {A B} (f g : A -> res B) l : (forall x, f x = g x) -> rmap f l = rmap g l.
  Proof. intros E. induction l as [|x l IH]; simpl; auto. rewrite E, IH. auto. Qed.
  Lemma geq_sender_topo e s s' a : geq s s' -> sender_topo e s' a = sender_topo e s a.
  Proof.
    intros E. unfold sender_topo. rewrite (geq_keys_act _ _ a E). apply rmap_ext. intros r. rewrite (ge_act _ _ E). destruct (act s r a); auto.
    rewrite (rmap_ext (fun k => match act s' a k with Some d => Ok (k, c_uid d) | None => UB end) (fun k => match act s a k with Some d => Ok (k, c_uid d) | None => UB end)); auto.
    intros k. rewrite (ge_act _ _ E). auto.
  Qed.
  Lemma geq_deref s s' a b u : geq s s' -> deref s' a b u = deref s a b u.
  Proof. intros E. unfold deref. rewrite (ge_act _ _ E). auto. Qed.
  Lemma geq_can s s' a l : geq s s' -> can_update s' a l = can_update s a l.
  Proof. intros E. induction l as [|[k u] l IH]; simpl; auto. rewrite (geq_deref _ _ _ _ _ E), IH. auto. Qed.
  Lemma geq_select s s' l : geq s s' -> select s' l = select s l.
  Proof. intros E. induction l as [|t l IH]; simpl; auto. rewrite (geq_can _ _ _ _ E), IH. auto. Qed.

  (** {1 Writers} *)
  Lemma sim_set_node s s' a nd nd' : geq s s' -> (forall b, nd_act nd' b = nd_act nd b) -> (forall b, nd_dis nd' b = nd_dis nd b) ->
    nd_un nd' = nd_un nd -> nd_merged nd' = nd_merged nd -> geq (set_node s a nd) (set_node s' a nd').
  Proof.
    intros E A D U M. constructor; try apply E; intros x; unfold act, dis; simpl; unfold fupd; destruct (Nat.eqb_spec x a); auto; try apply E.
  Qed.
  Lemma sim_set_act_msg s s' a b m : geq s s' -> sim (set_act_msg s a b m) (set_act_msg s' a b m).
  Proof.
    intros E. unfold set_act_msg. rewrite (ge_act _ _ E). destruct (act s a b) as [c|] eqn:Q; simpl; auto. eexists. split; [reflexivity|].
    apply sim_set_node; auto; simpl; try apply E. intros x. unfold fupd. destruct (x =? b); auto. apply (ge_act _ _ E).
  Qed.
  Lemma geq_set_merged s s' a m : geq s s' -> geq (set_merged s a m) (set_merged s' a m).
  Proof. intros E. apply sim_set_node; auto; simpl; try apply E; intros; apply E. Qed.
  Lemma sim_update_merged e s s' a : geq s s' -> sim (update_merged H e a s) (update_merged H e a s').
  Proof.
    intros E. unfold update_merged. rewrite (geq_gather e _ _ a E). destruct (gather_unaries H e s a).
    - apply sim_bind. apply sim_lift; auto. apply geq_node_var; auto. intros v s1 s1' _ E1. apply sim_ret, geq_set_merged; auto.
    - apply sim_bind. apply sim_lift; auto. intros v s1 s1' _ E1. apply sim_ret, geq_set_merged; auto.
  Qed.
  Lemma sim_topo_loop e nodes : forall acc s s', geq s s' -> sim (topo_loop H e nodes acc s) (topo_loop H e nodes acc s').
  Proof.
    induction nodes as [|a nodes IH]; intros acc s s' E; cbn [topo_loop]. apply sim_ret; auto.
    apply sim_bind. apply sim_update_merged; auto. intros _ s1 s1' _ E1. apply sim_bind. apply sim_lift; auto. apply geq_sender_topo; auto.
    intros ts s2 s2' _ E2. auto.
  Qed.
  Lemma sim_update_connectivity e i s s' : geq s s' -> sim (update_connectivity H e i s) (update_connectivity H e i s').
  Proof.
    intros E. unfold update_connectivity. apply sim_bind. apply sim_lift; auto. apply geq_get_cl; auto. intros cl s1 s1' _ E1.
    apply sim_bind. rewrite (geq_size _ _ E1). apply sim_topo_loop; auto. intros ts s2 s2' _ E2. apply sim_ret.
    constructor; simpl; try apply E2. rewrite (ge_cl _ _ E2). auto.
  Qed.
  Lemma sim_prepare e i s s' : geq s s' -> sim (prepare H e i s) (prepare H e i s').
  Proof.
    intros E. unfold prepare. apply sim_bind. apply sim_lift; auto. apply geq_get_cl; auto. intros cl s1 s1' _ E1. destruct (cl_topo cl).
    - rewrite (geq_size _ _ E1). apply sim_fold; auto. intros a s2 s2' _ E2. rewrite (ge_merged _ _ E2). destruct (nd_merged (g_node s2 a)).
      apply sim_ret; auto. apply sim_update_merged; auto.
    - apply sim_update_connectivity; auto.
  Qed.
  Lemma sim_reset e s s' : geq s s' -> sim (reset_messages e s) (reset_messages e s').
  Proof.
    intros E. unfold reset_messages. rewrite (ge_cl _ _ E). apply sim_fold; auto. intros cl s1 s1' _ E1. rewrite (geq_size _ _ E1). apply sim_fold; auto.
    intros a s2 s2' _ E2. rewrite (geq_keys_act _ _ a E2). apply sim_fold; auto. intros b s3 s3' _ E3. apply sim_set_act_msg; auto.
  Qed.
  Lemma sim_set_ones e cl s s' : geq s s' -> sim (set_ones e cl s) (set_ones e cl s').
  Proof.
    intros E. unfold set_ones. rewrite (geq_size _ _ E). apply sim_fold; auto. intros a s2 s2' _ E2. apply sim_bind. apply sim_lift; auto. apply geq_node_var; auto.
    intros v s1 s1' _ E1. rewrite (geq_keys_act _ _ a E1). apply sim_fold; auto. intros b s3 s3' _ E3. apply sim_set_act_msg; auto.
  Qed.

  (** {1 One message} *)

  (** what [updateMessage] reads: the message and the variation *)
  Definition upd_val (k : kind) (t : topo) s : res (option (func N * vari (N:=N))) :=
    match nd_merged (g_node s (t_snd t)) with
    | None => Throw
    | Some mu =>
        let* ms := dep_messages s (t_snd t) (t_deps t) in
        match ms with
        | None => Ok None
        | Some ms =>
            let* mg := merged_unaries (Some mu :: map Some ms) in
            let* c := deref s (t_rcv t) (t_snd t) (t_uid t) in
            let* m := message k mg (H (c_fac c)) in
            match c_msg c with
            | None => Ok (Some (m, VMax))
            | Some old => let* d := diff old m in Ok (Some (m, VNum d))
            end
        end
    end.
  Definition upd_write (t : topo) (o : option (func N * vari (N:=N))) s : out gst (option vari) :=
    match o with
    | None => Ret None s
    | Some (m, v) => do (_, s) <- set_act_msg s (t_rcv t) (t_snd t) (Some m) ;; Ret (Some v) s
    end.
  Lemma deref_act s a b u c : deref s a b u = Ok c -> act s a b = Some c.
  Proof. unfold deref. destruct (act s a b) as [c'|]; [|discriminate]. destruct (c_uid c' =? u); congruence. Qed.
  Lemma update_message_ret k t s o s' : update_message H k t s = Ret o s' <-> exists x, upd_val k t s = Ok x /\ upd_write t x s = Ret o s'.
  Proof.
    unfold update_message, upd_val. destruct (nd_merged (g_node s (t_snd t))) as [mu|]; [|split; [discriminate|intros (x & Q & _); discriminate]].
    destruct (dep_messages s (t_snd t) (t_deps t)) as [[ms|]| | | |]; cbn [lift obind rbind]; try (split; [discriminate|intros (x & Q & _); discriminate]).
    2:{ split. intros [= <- <-]. exists None. auto. intros (x & [= <-] & Q). exact Q. }
    destruct (merged_unaries (Some mu :: map Some ms)) as [mg| | | |]; cbn [lift obind rbind]; try (split; [discriminate|intros (x & Q & _); discriminate]).
    destruct (deref s (t_rcv t) (t_snd t) (t_uid t)) as [c| | | |] eqn:D; cbn [lift obind rbind]; try (split; [discriminate|intros (x & Q & _); discriminate]).
    destruct (message k mg (H (c_fac c))) as [m| | | |]; cbn [lift obind rbind]; try (split; [discriminate|intros (x & Q & _); discriminate]).
    unfold upd_write. apply deref_act in D.
    destruct (set_act_msg s (t_rcv t) (t_snd t) (Some m)) as [[] s1|s1| | |] eqn:Q; cbn [obind].
    - destruct (c_msg c) as [old|].
      + destruct (diff old m) as [d| | | |]; cbn [lift obind rbind]; (split; [intros Z|intros (x & Z1 & Z2)]); try discriminate.
        injection Z as <- <-. eexists. split. reflexivity. simpl. rewrite Q. auto. injection Z1 as <-. simpl in Z2. rewrite Q in Z2. auto.
      + split. intros [= <- <-]. eexists. split. reflexivity. simpl. rewrite Q. auto. intros (x & [= <-] & Z). simpl in Z. rewrite Q in Z. auto.
    - unfold set_act_msg in Q. rewrite D in Q. discriminate.
    - unfold set_act_msg in Q. rewrite D in Q. discriminate.
    - unfold set_act_msg in Q. rewrite D in Q. discriminate.
    - unfold set_act_msg in Q. rewrite D in Q. discriminate.
  Qed.

  Lemma dep_messages_ext s s' snd l : (forall d, In d (map fst l) -> act s' snd d = act s snd d) -> dep_messages s' snd l = dep_messages s snd l.
  Proof.
    induction l as [|[d u] l IH]; simpl; intros E; auto. unfold deref. rewrite (E d) by auto. rewrite IH by auto. auto.
  Qed.
  Lemma upd_val_ext k t s s' : nd_merged (g_node s' (t_snd t)) = nd_merged (g_node s (t_snd t)) ->
    (forall d, In d (map fst (t_deps t)) -> act s' (t_snd t) d = act s (t_snd t) d) ->
    act s' (t_rcv t) (t_snd t) = act s (t_rcv t) (t_snd t) -> upd_val k t s' = upd_val k t s.
  Proof. intros M D A. unfold upd_val, deref. rewrite M, A, (dep_messages_ext s s') by auto. auto. Qed.
  Lemma geq_upd_val k t s s' : geq s s' -> upd_val k t s' = upd_val k t s.
  Proof. intros E. apply upd_val_ext; intros; apply E. Qed.
  Lemma sim_update k t s s' : geq s s' -> sim (update_message H k t s) (update_message H k t s').
  Proof.
    intros E. destruct (update_message H k t s) as [o s1| | | |] eqn:Q; simpl; auto. apply update_message_ret in Q as (x & Q1 & Q2).
    assert (S : sim (upd_write t x s) (upd_write t x s')).
    { destruct x as [[m v]|]; simpl. apply sim_bind. apply sim_set_act_msg; auto. intros; apply sim_ret; auto. eexists; eauto. }
    rewrite Q2 in S. destruct S as (s2 & S & E2). exists s2. split; auto. apply update_message_ret. exists x. rewrite (geq_upd_val k t s s') by auto. auto.
  Qed.
  Lemma upd_write_frame t x s o s' : upd_write t x s = Ret o s' -> mframe s s' /\ (forall y, nd_merged (g_node s' y) = nd_merged (g_node s y)) /\
    (forall y z, (y, z) <> t_conn t -> act s' y z = act s y z) /\
    (forall c, act s (t_rcv t) (t_snd t) = Some c -> act s' (t_rcv t) (t_snd t) = Some (match x with Some (m, _) => with_msg c (Some m) | None => c end)).
  Proof.
    destruct x as [[m v]|]; simpl.
    - destruct (act s (t_rcv t) (t_snd t)) as [c|] eqn:Q; [|unfold set_act_msg; rewrite Q; discriminate].
      destruct (set_act_msg_spec s (t_rcv t) (t_snd t) c (Some m) Q) as (s1 & E1 & F & M & A & B). rewrite E1. simpl. intros [= _ <-]. splits; auto.
      intros c' [= <-]. auto.
    - intros [= _ <-]. splits; auto. apply mframe_refl.
  Qed.

  (** {1 Independent messages} *)
  Definition indep (t1 t2 : topo) : Prop := t_conn t1 <> t_conn t2 /\ ~ In (t_conn t1) (t_depconns t2) /\ ~ In (t_conn t2) (t_depconns t1).
  Lemma indep_sym t1 t2 : indep t1 t2 -> indep t2 t1.
  Proof. intros (A & B & C). unfold indep. auto. Qed.
  Lemma indep_val k t1 t2 x s o s' : indep t1 t2 -> upd_write t1 x s = Ret o s' -> upd_val k t2 s' = upd_val k t2 s.
  Proof.
    intros (A & B & C) W. apply upd_write_frame in W as (F & M & D & _). apply upd_val_ext; auto.
    - intros d I. apply D. intros E. apply B. rewrite <- E. unfold t_depconns. apply in_map_iff in I as ((d', u) & <- & I). apply in_map_iff. exists (d', u). auto.
  Qed.
  Lemma set_act_ret s a b m s' : set_act_msg s a b m = Ret tt s' -> exists c, act s a b = Some c /\ s' = set_node s a (with_act (g_node s a) (fupd (nd_act (g_node s a)) b (Some (with_msg c m)))).
  Proof. unfold set_act_msg. destruct (act s a b) as [c|]; [|discriminate]. intros [= <-]. eauto. Qed.
  Lemma set_msgs_comm a b m a' b' m' s s1 s2 : (a, b) <> (a', b') -> set_act_msg s a b m = Ret tt s1 -> set_act_msg s1 a' b' m' = Ret tt s2 ->
    exists s1' s2', set_act_msg s a' b' m' = Ret tt s1' /\ set_act_msg s1' a b m = Ret tt s2' /\ geq s2 s2'.
  Proof.
    intros NE E1 E2. destruct (set_act_ret _ _ _ _ _ E1) as (c & Ac & _). destruct (set_act_ret _ _ _ _ _ E2) as (d & Ad & _).
    destruct (set_act_msg_spec s a b c m Ac) as (x & X1 & X2 & X3 & X4 & X5). rewrite E1 in X1. injection X1 as <-.
    rewrite X5 in Ad by congruence.
    destruct (set_act_msg_spec s a' b' d m' Ad) as (s1' & Y1 & Y2 & Y3 & Y4 & Y5). assert (Ac' : act s1' a b = Some c) by (rewrite Y5; auto).
    destruct (set_act_msg_spec s1' a b c m Ac') as (s2' & Z1 & Z2 & Z3 & Z4 & Z5). exists s1', s2'. split; auto. split; auto.
    assert (Ad' : act s1 a' b' = Some d) by (rewrite X5; auto; congruence).
    destruct (set_act_msg_spec s1 a' b' d m' Ad') as (x & W1 & W2 & W3 & W4 & W5). rewrite E2 in W1. injection W1 as <-.
    apply set_act_ret in E1 as (c1 & _ & ->). apply set_act_ret in E2 as (c2 & _ & ->). apply set_act_ret in Y1 as (c3 & _ & ->). apply set_act_ret in Z1 as (c4 & _ & ->).
    constructor; auto.
    - intros y z. destruct (pair_dec (y, z) (a, b)) as [Q|Q].
      + injection Q as -> ->. rewrite Z4, W5, X4 by congruence. auto.
      + rewrite Z5 by auto. destruct (pair_dec (y, z) (a', b')) as [Q'|Q'].
        * injection Q' as -> ->. rewrite Y4, W4. auto.
        * rewrite Y5, W5, X5; auto.
    - intros y z. unfold dis. simpl. unfold fupd. destruct (Nat.eqb_spec y a), (Nat.eqb_spec y a'), (Nat.eqb_spec a a'), (Nat.eqb_spec a' a); subst; simpl; auto; congruence.
    - intros y. simpl. unfold fupd. destruct (Nat.eqb_spec y a), (Nat.eqb_spec y a'), (Nat.eqb_spec a a'), (Nat.eqb_spec a' a); subst; simpl; auto; congruence.
    - intros y. rewrite Z3, Y3, W3, X3. auto.
  Qed.
  Lemma upd_swap k t1 t2 s o1 o2 s1 s2 : indep t1 t2 -> update_message H k t1 s = Ret o1 s1 -> update_message H k t2 s1 = Ret o2 s2 ->
    exists s1' s2', update_message H k t2 s = Ret o2 s1' /\ update_message H k t1 s1' = Ret o1 s2' /\ geq s2 s2'.
  Proof.
    intros I E1 E2. apply update_message_ret in E1 as (x1 & V1 & W1). apply update_message_ret in E2 as (x2 & V2 & W2).
    rewrite (indep_val k t1 t2 x1 s o1 s1 I W1) in V2.
    assert (G : exists s1' s2', upd_write t2 x2 s = Ret o2 s1' /\ upd_write t1 x1 s1' = Ret o1 s2' /\ geq s2 s2').
    { destruct x1 as [[m1 v1]|], x2 as [[m2 v2]|]; simpl in *.
      - destruct (set_act_msg s (t_rcv t1) (t_snd t1) (Some m1)) as [[] s1a| | | |] eqn:A1; simpl in W1; try discriminate. injection W1 as <- <-.
        destruct (set_act_msg s1a (t_rcv t2) (t_snd t2) (Some m2)) as [[] s2a| | | |] eqn:A2; simpl in W2; try discriminate. injection W2 as <- <-.
        destruct (set_msgs_comm _ _ _ _ _ _ _ _ _ (proj1 I) A1 A2) as (s1' & s2' & B1 & B2 & B3). exists s1', s2'. rewrite B1. simpl. rewrite B2. auto.
      - injection W2 as <- <-. exists s, s1. split; auto. split; auto. apply geq_refl.
      - injection W1 as <- <-. exists s2, s2. split; auto. split; auto. apply geq_refl.
      - injection W1 as <- <-. injection W2 as <- <-. exists s, s. split; auto. split; auto. apply geq_refl. }
    destruct G as (s1' & s2' & G1 & G2 & G3). exists s1', s2'. split; [|split; auto].
    - apply update_message_ret. eauto.
    - apply update_message_ret. exists x1. split; auto. rewrite (indep_val k t2 t1 x2 s o2 s1' (indep_sym _ _ I) G1). auto.
  Qed.

  (** {1 Batches} *)
  Definition indeps (l : list topo) : Prop := NoDup (map t_conn l) /\ forall t1 t2, In t1 l -> In t2 l -> t_conn t1 <> t_conn t2 -> indep t1 t2.
  Lemma indeps_tail t l : indeps (t :: l) -> indeps l.
  Proof. intros [A B]. inversion A; subst. split; auto. intros t1 t2 I1 I2. apply B; simpl; auto. Qed.
  Lemma indeps_perm l l' : Permutation l l' -> indeps l -> indeps l'.
  Proof.
    intros P [A B]. split. eapply Permutation_NoDup; [|exact A]. apply Permutation_map; auto.
    intros t1 t2 I1 I2. apply B; eapply Permutation_in; try apply Permutation_sym; eauto.
  Qed.
  Notation tree_task k := (fun t s => do (_, s) <- update_message H k t s ;; Ret tt s).
  Lemma sim_tree_task k t s s' : geq s s' -> sim (tree_task k t s) (tree_task k t s').
  Proof. intros E. apply sim_bind. apply sim_update; auto. intros; apply sim_ret; auto. Qed.
  Lemma tree_batch_perm k l l' : Permutation l l' -> indeps l -> forall s s', geq s s' -> sim (ofold (tree_task k) l s) (ofold (tree_task k) l' s').
  Proof.
    induction 1 as [|t l l' P IH|t1 t2 l|l1 l2 l3 P1 IH1 P2 IH2]; intros D s s' E.
    - apply sim_ret; auto.
    - simpl. apply sim_bind. apply sim_tree_task; auto. intros _ s1 s1' _ E1. apply IH; auto. eapply indeps_tail; eauto.
    - eapply sim_trans with (o2 := ofold (tree_task k) (t1 :: t2 :: l) s).
      2:{ apply sim_fold; auto. intros; apply sim_tree_task; auto. }
      simpl. destruct (update_message H k t2 s) as [o2 s1| | | |] eqn:E2; simpl; auto. destruct (update_message H k t1 s1) as [o1 s2| | | |] eqn:E1; simpl; auto.
      assert (I : indep t2 t1). { apply D; simpl; auto. destruct D as [D _]. simpl in D. inversion D; subst. intros Q. apply H2. rewrite Q. simpl; auto. }
      destruct (upd_swap k t2 t1 s o2 o1 s1 s2 I E2 E1) as (s1' & s2' & G1 & G2 & G3). rewrite G1. simpl. rewrite G2. simpl.
      apply sim_fold; auto. intros; apply sim_tree_task; auto.
    - eapply sim_trans. apply IH1; [auto|apply geq_refl]. apply IH2; auto. eapply indeps_perm; eauto.
  Qed.

  Lemma vmax_comm (v x y : vari (N:=N)) : vmax (vmax v x) y = vmax (vmax v y) x.
  Proof.
    assert (G : forall a b c : N, nmax (nmax a b) c = nmax (nmax a c) b).
    { intros a b c. rewrite <- !(nmax_assoc OK), (nmax_comm OK b c). auto. }
    destruct v, x, y; simpl; auto. rewrite G. auto.
  Qed.
  Lemma sim_loopy_tasks k l : forall v s s', geq s s' -> sim (loopy_tasks H k l v s) (loopy_tasks H k l v s').
  Proof.
    induction l as [|t l IH]; intros v s s' E; cbn [loopy_tasks]. apply sim_ret; auto. apply sim_bind. apply sim_update; auto.
    intros [x|] s1 s1' _ E1; simpl; auto.
  Qed.
  Lemma loopy_batch_order k l l' : Permutation l l' -> indeps l -> forall v s s', geq s s' -> sim (loopy_tasks H k l v s) (loopy_tasks H k l' v s').
  Proof.
    induction 1 as [|t l l' P IH|t1 t2 l|l1 l2 l3 P1 IH1 P2 IH2]; intros D v s s' E.
    - apply sim_ret; auto.
    - cbn [loopy_tasks]. apply sim_bind. apply sim_update; auto. intros [x|] s1 s1' _ E1; simpl; auto. apply IH; auto. eapply indeps_tail; eauto.
    - eapply sim_trans with (o2 := loopy_tasks H k (t1 :: t2 :: l) v s). 2:{ apply sim_loopy_tasks; auto. }
      cbn [loopy_tasks]. destruct (update_message H k t2 s) as [[x2|] s1| | | |] eqn:E2; simpl; auto. destruct (update_message H k t1 s1) as [[x1|] s2| | | |] eqn:E1; simpl; auto.
      assert (I : indep t2 t1). { apply D; simpl; auto. destruct D as [D _]. simpl in D. inversion D; subst. intros Q. apply H2. rewrite Q. simpl; auto. }
      destruct (upd_swap k t2 t1 s _ _ s1 s2 I E2 E1) as (s1' & s2' & G1 & G2 & G3). rewrite G1. simpl. rewrite G2. simpl.
      rewrite vmax_comm. apply sim_loopy_tasks; auto.
    - eapply sim_trans. apply IH1; [auto|apply geq_refl]. apply IH2; auto. eapply indeps_perm; eauto.
  Qed.

  (** the batches built by the loopy propagator *)
  Lemma pmem_spec p l : pmem p l = true <-> In p l.
  Proof.
    unfold pmem. rewrite existsb_exists. split.
    - intros (q & I & E). apply andb_true_iff in E as [E1 E2]. apply Nat.eqb_eq in E1, E2. destruct p, q; simpl in *; subst; auto.
    - intros I. exists p. split; auto. rewrite !Nat.eqb_refl. auto.
  Qed.
  Lemma loopy_batch_sound l : forall sn wl b o, loopy_batch l sn wl = (b, o) -> NoDup (map t_conn l) ->
    (forall t, In t b -> ~ In (t_conn t) sn /\ forall d, In d (t_depconns t) -> ~ In d wl) /\ indeps b.
  Proof.
    induction l as [|t l IH]; intros sn wl b o E ND; simpl in E.
    - injection E as <- <-. split. intros t []. split. constructor. intros t1 t2 [].
    - inversion ND as [|? ? N1 N2]; subst.
      destruct (negb (pmem (t_conn t) sn) && negb (existsb (fun d => pmem d wl) (t_depconns t))) eqn:Q.
      + destruct (loopy_batch l (sn ++ t_depconns t) (wl ++ [t_conn t])) as [b' o'] eqn:E'. injection E as <- <-.
        destruct (IH _ _ _ _ E' N2) as [A [B1 B2]]. apply andb_true_iff in Q as [Q1 Q2]. apply negb_true_iff in Q1, Q2.
        assert (SB : incl b' l). { pose proof (loopy_batch_perm _ _ _ _ _ E') as P. intros x I. eapply Permutation_in; [exact P|]. apply in_or_app; auto. }
        split; [|split].
        * intros u [<-|I].
          -- split. intros I. apply pmem_spec in I. congruence. intros d I J. assert (X : existsb (fun d => pmem d wl) (t_depconns t) = true) by (apply existsb_exists; exists d; split; auto; apply pmem_spec; auto). congruence.
          -- destruct (A u I) as [A1 A2]. split. intros J. apply A1. apply in_or_app; auto. intros d I' J. apply (A2 d I'). apply in_or_app; auto.
        * simpl. constructor; auto. intros I. apply in_map_iff in I as (u & Eu & Iu). apply N1. rewrite <- Eu. apply in_map. auto.
        * intros t1 t2 [<-|I1] [<-|I2] NE; auto; try congruence.
          -- destruct (A t2 I2) as [A1 A2]. split; auto. split. intros J. apply (A2 _ J). apply in_or_app; simpl; auto. intros J. apply A1. apply in_or_app; auto.
          -- destruct (A t1 I1) as [A1 A2]. split; auto. split. intros J. apply A1. apply in_or_app; auto. intros J. apply (A2 _ J). apply in_or_app; simpl; auto.
      + destruct (loopy_batch l sn wl) as [b' o'] eqn:E'. injection E as <- <-. eapply IH; eauto.
  Qed.
  Lemma loopy_batches_sound n : forall l bs, loopy_batches n l = Ok bs -> NoDup (map t_conn l) -> forall b, In b bs -> indeps b.
  Proof.
    induction n as [|n IH]; intros [|t l] bs E ND b I; cbn [loopy_batches] in E; try discriminate; try (injection E as <-; destruct I).
    destruct (loopy_batch (t :: l) [] []) as [b1 o] eqn:Q. destruct (loopy_batches n o) as [bs'| | | |] eqn:Q'; try discriminate. injection E as <-.
    destruct I as [<-|I]. eapply loopy_batch_sound; eauto. eapply IH; eauto.
    pose proof (loopy_batch_perm _ _ _ _ _ Q) as P. apply (Permutation_map t_conn), Permutation_sym in P. eapply Permutation_NoDup in P; auto.
    rewrite map_app in P. apply NoDup_app_parts in P. tauto.
  Qed.

  (** {1 Orders of execution} *)
  Definition with_sched (e : env) (f : nat -> list nat -> list nat) : env := mkEnv (e_ord e) f.
  Lemma with_sched_ok e f : env_ok e -> (forall t l, Permutation (f t l) l) -> env_ok (with_sched e f).
  Proof. intros [A B] C. split; auto. Qed.

  Section Sched.
    Variable e : env.
    Hypothesis E : env_ok e.
    Variable f : nat -> list nat -> list nat.
    Hypothesis F : forall t l, Permutation (f t l) l.
    Notation e' := (with_sched e f).
    Lemma schedules {A} pool (l : list A) : Permutation (schedule e pool l) (schedule e' pool l).
    Proof. eapply Permutation_trans. apply schedule_perm; auto. apply Permutation_sym, schedule_perm. apply with_sched_ok; auto. Qed.

    Lemma sim_loopy_sweep pool k bs : (forall b, In b bs -> pool = 1 \/ indeps b) -> forall v s s', geq s s' ->
      sim (loopy_sweep H e pool k bs v s) (loopy_sweep H e' pool k bs v s').
    Proof.
      induction bs as [|b bs IH]; intros D v s s' G; cbn [loopy_sweep]. apply sim_ret; auto. apply sim_bind.
      - destruct (Nat.eqb_spec pool 1) as [->|NE]. unfold schedule. simpl. apply sim_loopy_tasks; auto.
        destruct (D b (or_introl eq_refl)) as [Q|Q]; [contradiction|]. apply loopy_batch_order; auto. apply schedules.
        eapply indeps_perm; [|exact Q]. apply Permutation_sym, schedule_perm; auto.
      - intros v1 s1 s1' _ G1. apply IH; auto. intros; apply D; simpl; auto.
    Qed.
    Lemma sim_loopy_iter pool k bs : (forall b, In b bs -> pool = 1 \/ indeps b) -> forall n s s', geq s s' ->
      sim (loopy_iter H n e pool k bs s) (loopy_iter H n e' pool k bs s').
    Proof.
      intros D. induction n as [|n IH]; intros s s' G; cbn [loopy_iter]. apply sim_ret; auto. apply sim_bind. apply sim_loopy_sweep; auto.
      intros v s1 s1' _ G1. destruct (below_tolerance v); auto. apply sim_ret; auto.
    Qed.
    (** [pool = 0] does not occur *)
    Lemma sim_loopy pool k i s s' : 1 <= pool -> geq s s' -> (forall cl ts, get_cl s i = Ok cl -> cl_topo cl = Some ts -> NoDup (map t_conn ts)) ->
      sim (loopy_propagate H e pool k i s) (loopy_propagate H e' pool k i s').
    Proof.
      intros Lp G D. unfold loopy_propagate. destruct (get_cl s i) as [cl| | | |] eqn:Q; simpl; auto. rewrite (geq_get_cl s s' i G), Q. simpl.
      apply sim_bind. exact (sim_set_ones e cl s s' G). intros _ s1 s1' _ G1. destruct (cl_topo cl) as [ts|] eqn:T; simpl; auto.
      apply sim_bind. apply sim_lift; auto. intros bs s2 s2' Eb G2. rewrite (ge_iters _ _ G2). apply sim_loopy_iter; auto.
      intros b I. unfold loopy_order in Eb. destruct (Nat.ltb_spec 1 pool). right. destruct (loopy_batches (length ts) ts) as [bs'| | | |] eqn:Z; simpl in Eb; try discriminate.
      injection Eb as -> _. eapply loopy_batches_sound; eauto. left. lia.
    Qed.

    (** trees: the messages to compute are null, those needed by the tasks of a round are not *)
    Definition msg s (p : nat * nat) : option (func N) := match act s (fst p) (snd p) with Some c => c_msg c | None => None end.
    Definition fresh s (l : list topo) : Prop := forall t t2, In t l -> In t2 l -> t_rcv t = t_snd t2 -> msg s (t_conn t) = None.
    Lemma can_update_deps s snd l : can_update s snd l = Ok true -> forall d, In d (map fst l) -> msg s (snd, d) <> None.
    Proof.
      induction l as [|[d u] l IH]; simpl; intros C x I; [contradiction|]. destruct (deref s snd d u) as [c| | | |] eqn:Q; try discriminate. simpl in C.
      destruct (c_msg c) eqn:M; [|discriminate]. destruct I as [<-|I]; auto. apply deref_act in Q. unfold msg. simpl. rewrite Q, M. discriminate.
    Qed.
    Lemma select_facts s l ready wait : select s l = Ok (ready, wait) -> Permutation (ready ++ wait) l /\ forall t, In t ready -> can_update s (t_snd t) (t_deps t) = Ok true.
    Proof.
      revert ready wait. induction l as [|t l IH]; intros ready wait Q; cbn [select] in Q. { injection Q as <- <-. split; auto. intros t []. }
      destruct (can_update s (t_snd t) (t_deps t)) as [b| | | |] eqn:C; try discriminate. cbn [rbind] in Q. destruct (select s l) as [[r w]| | | |]; try discriminate.
      destruct (IH _ _ eq_refl) as [P R]. simpl in Q. destruct b; injection Q as <- <-; split.
      - simpl. auto.
      - intros u [<-|I]; auto.
      - eapply Permutation_trans. apply Permutation_sym, Permutation_middle. auto.
      - auto.
    Qed.
    Lemma ready_indeps s l ready wait : select s l = Ok (ready, wait) -> NoDup (map t_conn l) -> fresh s l -> indeps ready.
    Proof.
      intros Q ND FR. destruct (select_facts _ _ _ _ Q) as [P R]. assert (IN : forall t, In t ready -> In t l) by (intros t I; eapply Permutation_in; [exact P|]; apply in_or_app; auto).
      split. { apply (Permutation_map t_conn), Permutation_sym in P. eapply Permutation_NoDup in P; auto. rewrite map_app in P. apply NoDup_app_parts in P. tauto. }
      assert (G : forall t1 t2, In t1 ready -> In t2 ready -> ~ In (t_conn t1) (t_depconns t2)).
      { intros t1 t2 I1 I2 I. unfold t_depconns in I. apply in_map_iff in I as (d & Ed & Id). apply (can_update_deps _ _ _ (R t2 I2) (fst d)).
        - apply in_map; auto.
        - rewrite Ed. apply (FR t1 t2); auto. unfold t_conn in Ed. injection Ed as Ed _. auto. }
      intros t1 t2 I1 I2 NE. split; auto.
    Qed.
    Lemma update_frame k t s o s' : update_message H k t s = Ret o s' -> forall p, p <> t_conn t -> msg s' p = msg s p.
    Proof.
      intros Q [a b] NE. apply update_message_ret in Q as (x & _ & Q). apply upd_write_frame in Q as (_ & _ & A & _). unfold msg. simpl. rewrite A; auto.
    Qed.
    Lemma tree_fold_frame k l : forall s s', ofold (tree_task k) l s = Ret tt s' -> forall p, ~ In p (map t_conn l) -> msg s' p = msg s p.
    Proof.
      induction l as [|t l IH]; simpl; intros s s' Q p I. injection Q as <-; auto.
      destruct (update_message H k t s) as [o s1| | | |] eqn:E1; try discriminate. simpl in Q. rewrite (IH _ _ Q) by tauto. eapply update_frame; eauto.
    Qed.
    Lemma sim_mp_loop k pool n : forall l s s', NoDup (map t_conn l) -> fresh s l -> geq s s' -> sim (mp_loop H n e pool k l s) (mp_loop H n e' pool k l s').
    Proof.
      induction n as [|n IH]; intros [|t l] s s' ND FR G; cbn [mp_loop]; try (apply sim_ret; auto; fail). exact I.
      rewrite (geq_select s s' (t :: l) G). destruct (select s (t :: l)) as [[ready wait]| | | |] eqn:Q; cbn [lift obind]; try exact I.
      destruct ready as [|r0 r]. apply sim_ret; auto. pose proof (ready_indeps _ _ _ _ Q ND FR) as D. destruct (select_facts _ _ _ _ Q) as [P _].
      apply sim_bind.
      - apply tree_batch_perm; auto. apply schedules. eapply indeps_perm; [|exact D]. apply Permutation_sym, schedule_perm; auto.
      - intros [] s1 s1' E1 G1. assert (P' := P). apply (Permutation_map t_conn), Permutation_sym in P'. eapply Permutation_NoDup in P'; auto. rewrite map_app in P'.
        apply IH; auto. apply NoDup_app_parts in P'; tauto.
        intros u u2 I I2 Q2. rewrite (tree_fold_frame _ _ _ _ E1). { apply (FR u u2); auto; (eapply Permutation_in; [exact P|]); apply in_or_app; auto. }
        intros J. apply (Permutation_in _ (Permutation_map t_conn (schedule_perm e pool (r0 :: r) E))) in J.
        apply in_split in J as (l1 & l2 & J). rewrite J, <- app_assoc in P'. simpl in P'. apply NoDup_remove_2 in P'. apply P'. rewrite !in_app_iff. right. right. apply in_map. auto.
    Qed.

    (** {1 Propagation} *)
    Notation core := (core H).
    Definition acts_eq s s' : Prop := forall a b, act s' a b = act s a b.
    Lemma update_merged_acts e1 a s s' : update_merged H e1 a s = Ret tt s' -> acts_eq s s'.
    Proof.
      rewrite update_merged_eq. destruct (merge_of H e1 s a); simpl; try discriminate. intros [= <-] x y. unfold act. simpl. unfold fupd.
      destruct (Nat.eqb_spec x a); subst; auto.
    Qed.
    Lemma topo_loop_acts nodes : forall acc s ts s', topo_loop H e nodes acc s = Ret ts s' -> acts_eq s s'.
    Proof.
      induction nodes as [|a nodes IH]; intros acc s ts s' Q; cbn [topo_loop] in Q. injection Q as _ <-. intros x y; auto.
      destruct (update_merged H e a s) as [[] s1| | | |] eqn:E1; try discriminate. cbn [obind] in Q. destruct (sender_topo e s1 a); try discriminate. cbn [lift obind] in Q.
      intros x y. rewrite (IH _ _ _ _ Q x y). apply (update_merged_acts _ _ _ _ E1).
    Qed.
    Lemma prepare_acts i s s' : prepare H e i s = Ret tt s' -> acts_eq s s'.
    Proof.
      unfold prepare. destruct (get_cl s i) as [cl| | | |]; try discriminate. cbn [lift obind]. destruct (cl_topo cl).
      - generalize (e_ord e (gsize s) (cl_nodes cl)). intros l0. revert s. induction l0 as [|a l0 IH]; intros s Q; simpl in Q. injection Q as <-; intros x y; auto.
        destruct (nd_merged (g_node s a)); [apply IH; auto|]. destruct (update_merged H e a s) as [[] s1| | | |] eqn:E1; try discriminate. simpl in Q.
        intros x y. rewrite (IH _ Q x y). apply (update_merged_acts _ _ _ _ E1).
      - unfold update_connectivity. destruct (get_cl s i) as [cl'| | | |]; try discriminate. cbn [lift obind].
        destruct (topo_loop H e (e_ord e (gsize s) (cl_nodes cl')) [] s) as [ts s1| | | |] eqn:Q; try discriminate. cbn [obind]. intros [= <-].
        exact (topo_loop_acts _ _ _ _ _ Q).
    Qed.
    Lemma acts_msg s s' p : acts_eq s s' -> msg s' p = msg s p.
    Proof. intros A. unfold msg. rewrite A. auto. Qed.

    (** the messages of a set of nodes are not touched *)
    Definition others (S : list nat) s s' : Prop := forall a b, In a S -> msg s' (a, b) = msg s (a, b).
    Lemma others_trans S s1 s2 s3 : others S s1 s2 -> others S s2 s3 -> others S s1 s3.
    Proof. intros A B a b I. rewrite B, A; auto. Qed.
    Lemma ofold_others {A} (g : A -> gst -> out gst unit) S l : (forall x s s', In x l -> g x s = Ret tt s' -> others S s s') -> forall s s', ofold g l s = Ret tt s' -> others S s s'.
    Proof.
      induction l as [|x l IH]; simpl; intros G s s' Q. injection Q as <-; intros a b; auto. destruct (g x s) as [[] s1| | | |] eqn:E1; try discriminate.
      eapply others_trans. eapply G; eauto. eapply IH; eauto.
    Qed.
    Lemma set_act_others S s a b m s' : ~ In a S -> set_act_msg s a b m = Ret tt s' -> others S s s'.
    Proof.
      intros NI Q. destruct (set_act_ret _ _ _ _ _ Q) as (c & Ac & _). destruct (set_act_msg_spec s a b c m Ac) as (x & X1 & X2 & X3 & X4 & X5).
      rewrite Q in X1. injection X1 as <-. intros y z I. unfold msg. simpl. rewrite X5; auto. intros [= -> _]. contradiction.
    Qed.
    Lemma update_others S k t s o s' : ~ In (t_rcv t) S -> update_message H k t s = Ret o s' -> others S s s'.
    Proof. intros NI Q a b I. eapply update_frame; eauto. intros [= -> _]. contradiction. Qed.
    Lemma mp_loop_others S k pool : forall n l s b s', (forall t, In t l -> ~ In (t_rcv t) S) -> mp_loop H n e pool k l s = Ret b s' -> others S s s'.
    Proof.
      induction n as [|n IH]; intros [|t l] s b s' D Q; cbn [mp_loop] in Q; try discriminate; try (injection Q as _ <-; intros x y; auto; fail).
      destruct (select s (t :: l)) as [[ready wait]| | | |] eqn:E1; try discriminate. cbn [lift obind] in Q.
      destruct (select_facts _ _ _ _ E1) as [P _]. destruct ready as [|r0 r]. injection Q as _ <-; intros x y; auto.
      destruct (ofold (tree_task k) (schedule e pool (r0 :: r)) s) as [[] s1| | | |] eqn:E2; try discriminate. cbn [obind] in Q.
      eapply others_trans; [|eapply IH; [|exact Q]].
      - eapply ofold_others; [|exact E2]. intros x s2 s3 I E3. cbn beta in E3. destruct (update_message H k x s2) as [o s4| | | |] eqn:E4; try discriminate. cbn [obind] in E3. injection E3 as <-.
        eapply update_others; eauto. apply D. eapply Permutation_in; [exact P|]. apply in_or_app. left. eapply Permutation_in; [|exact I]. apply schedule_perm; auto.
      - intros u I. apply D. eapply Permutation_in; [exact P|]. apply in_or_app; auto.
    Qed.
    Lemma loopy_tasks_others S k l : forall v s v' s', (forall t, In t l -> ~ In (t_rcv t) S) -> loopy_tasks H k l v s = Ret v' s' -> others S s s'.
    Proof.
      induction l as [|t l IH]; intros v s v' s' D Q; cbn [loopy_tasks] in Q. injection Q as _ <-; intros x y; auto.
      destruct (update_message H k t s) as [[x|] s1| | | |] eqn:E1; try discriminate. cbn [obind] in Q. eapply others_trans. eapply update_others; eauto. apply D; simpl; auto.
      eapply IH; eauto. intros; apply D; simpl; auto.
    Qed.
    Lemma loopy_sweep_others S k pool bs : (forall b t, In b bs -> In t b -> ~ In (t_rcv t) S) -> forall v s v' s', loopy_sweep H e pool k bs v s = Ret v' s' -> others S s s'.
    Proof.
      induction bs as [|b bs IH]; intros D v s v' s' Q; cbn [loopy_sweep] in Q. injection Q as _ <-; intros x y; auto.
      destruct (loopy_tasks H k (schedule e pool b) v s) as [v1 s1| | | |] eqn:E1; try discriminate. cbn [obind] in Q. eapply others_trans; [|eapply IH; [|exact Q]].
      - eapply loopy_tasks_others; [|exact E1]. intros t I. apply (D b); simpl; auto. eapply Permutation_in; [|exact I]. apply schedule_perm; auto.
      - intros b' t Ib. apply D; simpl; auto.
    Qed.
    Lemma loopy_iter_others S k pool bs : (forall b t, In b bs -> In t b -> ~ In (t_rcv t) S) -> forall n s v' s', loopy_iter H n e pool k bs s = Ret v' s' -> others S s s'.
    Proof.
      intros D. induction n as [|n IH]; intros s v' s' Q; cbn [loopy_iter] in Q. injection Q as _ <-; intros x y; auto.
      destruct (loopy_sweep H e pool k bs (VNum n0) s) as [v1 s1| | | |] eqn:E1; try discriminate. cbn [obind] in Q. destruct (below_tolerance v1).
      injection Q as _ <-. eapply loopy_sweep_others; eauto. eapply others_trans; [|eapply IH; eauto]. eapply loopy_sweep_others; eauto.
    Qed.
    Lemma set_ones_others S cl s s' : (forall a, In a (cl_nodes cl) -> ~ In a S) -> set_ones e cl s = Ret tt s' -> others S s s'.
    Proof.
      intros D Q. unfold set_ones in Q. eapply ofold_others; [|exact Q]. intros a s1 s2 I Q1. cbn beta in Q1. destruct (node_var s1 a); try discriminate. cbn [lift obind] in Q1.
      eapply ofold_others; [|exact Q1]. intros b s3 s4 _ Q2. eapply set_act_others; [|exact Q2]. apply D. apply ord_In in I; auto.
    Qed.
    Lemma loopy_others S k pool i s cl ts b s' : get_cl s i = Ok cl -> cl_topo cl = Some ts -> (forall a, In a (cl_nodes cl) -> ~ In a S) -> (forall t, In t ts -> ~ In (t_rcv t) S) ->
      loopy_propagate H e pool k i s = Ret b s' -> others S s s'.
    Proof.
      intros Ec Et D1 D2 Q. unfold loopy_propagate in Q. rewrite Ec in Q. cbn [lift obind] in Q. destruct (set_ones e cl s) as [[] s1| | | |] eqn:E1; try discriminate. cbn [obind] in Q.
      rewrite Et in Q. destruct (loopy_order_ok pool ts) as (bs & Eb & P). rewrite Eb in Q. cbn [lift obind] in Q. eapply others_trans. eapply set_ones_others; eauto.
      eapply loopy_iter_others; [|exact Q]. intros b' t Ib It. apply D2. eapply Permutation_in; [exact P|]. apply in_concat. eauto.
    Qed.

    (** the messages of the clusters left are null *)
    Definition pending s (is : list nat) : Prop := forall i cl a b, In i is -> nth_error (g_cl s) i = Some cl -> In a (cl_nodes cl) -> msg s (a, b) = None.
    Lemma t_conn_edges (ts : list topo) : NoDup (map t_edge ts) -> NoDup (map t_conn ts).
    Proof.
      intros ND. apply (FinFun.Injective_map_NoDup (f := fun p : nat * nat => (snd p, fst p))) in ND; [|intros [a b] [c d] [= -> ->]; auto].
      rewrite map_map in ND. exact ND.
    Qed.
    Lemma cl_nodes_keep s s' i cl' : keeps H s s' -> nth_error (g_cl s') i = Some cl' -> exists cl, nth_error (g_cl s) i = Some cl /\ cl_nodes cl = cl_nodes cl'.
    Proof.
      intros K Q. pose proof (kp_cl _ _ _ K) as E1. apply (f_equal (fun l => nth_error l i)) in E1. rewrite !nth_error_map, Q in E1. simpl in E1.
      destruct (nth_error (g_cl s) i) as [cl|]; [|discriminate]. injection E1 as E1. exists cl. auto.
    Qed.
    Lemma cluster_disjoint s i j ci cj a : clus s -> nth_error (g_cl s) i = Some ci -> nth_error (g_cl s) j = Some cj -> In a (cl_nodes ci) -> In a (cl_nodes cj) -> i = j.
    Proof.
      intros CS Hi Hj Ia Ja. eapply (nodup_concat_index (map cl_nodes (g_cl s))); [apply clus_nodup; auto| | |exact Ia|exact Ja]; rewrite nth_error_map, ?Hi, ?Hj; auto.
    Qed.
    Lemma topo_loop_sched nodes : forall acc s, topo_loop H e' nodes acc s = topo_loop H e nodes acc s.
    Proof.
      induction nodes as [|a nodes IH]; intros acc s; cbn [topo_loop]; auto. change (update_merged H e' a s) with (update_merged H e a s).
      destruct (update_merged H e a s) as [[] s1| | | |]; auto. cbn [obind]. change (sender_topo e' s1 a) with (sender_topo e s1 a).
      destruct (sender_topo e s1 a); auto. cbn [lift obind]. apply IH.
    Qed.
    Lemma prepare_sched i s : prepare H e' i s = prepare H e i s.
    Proof.
      unfold prepare. destruct (get_cl s i) as [cl| | | |]; auto. cbn [lift obind]. destruct (cl_topo cl); auto.
      unfold update_connectivity. destruct (get_cl s i) as [cl'| | | |]; auto. cbn [lift obind].
      rewrite topo_loop_sched. auto.
    Qed.
    Lemma sim_prop_loop fs k pool : 1 <= pool -> forall is, NoDup is -> forall r s s', core s fs -> clus s -> pending s is -> geq s s' ->
      sim (prop_loop H e pool k is r s) (prop_loop H e' pool k is r s').
    Proof.
      intros Lp. induction is as [|i is IH]; intros ND r s s' C CS PE G; cbn [prop_loop]. apply sim_ret; auto. inversion ND as [|? ? Ni ND']; subst.
      apply sim_bind. rewrite prepare_sched. exact (sim_prepare e i s s' G). intros [] s1 s1' E1 G1.
      pose proof (prepare_acts _ _ _ E1) as A1. pose proof (prepare_keeps H fs e i s E C CS) as K1. rewrite E1 in K1. simpl in K1.
      assert (C1 : core s1 fs) by (eapply keeps_core; eauto). assert (CS1 : clus s1) by (eapply keeps_clus; eauto).
      assert (PE1 : pending s1 (i :: is)).
      { intros j cl a b Ij Hj Ia. rewrite (acts_msg s s1) by auto. destruct (cl_nodes_keep _ _ _ _ K1 Hj) as (cl0 & H0 & En). apply (PE j cl0); auto. rewrite En; auto. }
      rewrite (geq_get_cl s1 s1' i G1). destruct (get_cl s1 i) as [cl| | | |] eqn:Ec; cbn [lift obind]; try exact I.
      assert (Hi : nth_error (g_cl s1) i = Some cl). { unfold get_cl, vget in Ec. destruct (nth_error (g_cl s1) i); congruence. }
      assert (TO : forall ts, cl_topo cl = Some ts -> topo_ok s1 (cl_nodes cl) ts) by (intros ts Et; eapply cs_topo; eauto; eapply nth_error_In; eauto).
      assert (ST : forall ts t j cj, cl_topo cl = Some ts -> In t ts -> In j is -> nth_error (g_cl s1) j = Some cj -> ~ In (t_rcv t) (cl_nodes cj)).
      { intros ts t j cj Et It Ij Hj Ia. specialize (TO ts Et). destruct (proj1 (tk_edges _ _ _ TO (t_snd t) (t_rcv t)) ltac:(apply in_map_iff; exists t; auto)) as [I1 I2].
        assert (Ic : In (t_rcv t) (cl_nodes cl)).
        { eapply (cp_closed _ _ _ (cs_comp _ CS1)); eauto. apply in_map. eapply nth_error_In; eauto. apply hid_In. eapply clus_hidden; eauto. eapply nth_error_In; eauto. }
        apply Ni. rewrite (cluster_disjoint s1 i j cl cj (t_rcv t)); auto. }
      assert (SD : forall j cj a, In j is -> nth_error (g_cl s1) j = Some cj -> In a (cl_nodes cl) -> ~ In a (cl_nodes cj)).
      { intros j cj a Ij Hj Ia Ja. apply Ni. rewrite (cluster_disjoint s1 i j cl cj a); auto. }
      assert (MPk := message_passing_keeps H fs e pool k i s1 C1).
      apply sim_bind.
      - unfold message_passing. rewrite (geq_get_cl s1 s1' i G1), Ec. cbn [lift obind]. destruct (cl_topo cl) as [ts|] eqn:Et; simpl; auto.
        apply sim_mp_loop; auto. apply t_conn_edges. apply (TO ts); auto.
        intros t t2 It It2 Q. unfold t_conn. apply (PE1 i cl); simpl; auto. rewrite Q.
        apply (proj1 (tk_edges _ _ _ (TO ts eq_refl) (t_snd t2) (t_rcv t2)) ltac:(apply in_map_iff; exists t2; auto)).
      - intros tree s2 s2' E2 G2. rewrite E2 in MPk. simpl in MPk.
        assert (C2 : core s2 fs) by (eapply keeps_core; eauto). assert (CS2 : clus s2) by (eapply keeps_clus; eauto).
        unfold message_passing in E2. rewrite Ec in E2. cbn [lift obind] in E2. destruct (cl_topo cl) as [ts|] eqn:Et; [|discriminate].
        assert (O2 : forall j cj, In j is -> nth_error (g_cl s1) j = Some cj -> others (cl_nodes cj) s1 s2).
        { intros j cj Ij Hj. eapply mp_loop_others; [|exact E2]. intros t It. eapply ST; eauto. }
        assert (PE2 : pending s2 is).
        { intros j cj a b Ij Hj Ia. destruct (cl_nodes_keep _ _ _ _ MPk Hj) as (cj1 & H1 & En). rewrite <- En in Ia. rewrite (O2 j cj1 Ij H1 a b Ia). eapply PE1; simpl; eauto. }
        destruct tree. apply IH; auto.
        assert (LPk := loopy_propagate_keeps H fs e pool k i s2 C2).
        assert (MT : exists cl2, get_cl s2 i = Ok cl2 /\ cl_nodes cl2 = cl_nodes cl /\ cl_topo cl2 = Some ts).
        { assert (EQ : forall n l s b s', mp_loop H n e pool k l s = Ret b s' -> g_cl s' = g_cl s).
          { clear. induction n as [|n IH]; intros [|t l] s b s' Q; cbn [mp_loop] in Q; try discriminate; try (injection Q as _ <-; auto; fail).
            destruct (select s (t :: l)) as [[ready wait]| | | |]; try discriminate. cbn [lift obind] in Q. destruct ready as [|r0 r]. injection Q as _ <-; auto.
            assert (FC : forall l s s', ofold (tree_task k) l s = Ret tt s' -> g_cl s' = g_cl s).
            { clear. induction l as [|t l IH]; simpl; intros s s' Q. injection Q as <-; auto. destruct (update_message H k t s) as [o s1| | | |] eqn:E1; try discriminate.
              simpl in Q. rewrite (IH _ _ Q). apply update_message_ret in E1 as (x & _ & E1). apply upd_write_frame in E1 as (F & _). apply F. }
            destruct (ofold (tree_task k) (schedule e pool (r0 :: r)) s) as [[] s1| | | |] eqn:E2; try discriminate. cbn [obind] in Q. rewrite (IH _ _ _ _ Q). apply (FC _ _ _ E2). }
          exists cl. unfold get_cl. rewrite (EQ _ _ _ _ _ E2). fold (get_cl s1 i). auto. }
        destruct MT as (cl2 & Ec2 & En2 & Et2).
        apply sim_bind.
        + apply sim_loopy; auto. intros cl3 ts3 Ec3 Et3. rewrite Ec2 in Ec3. injection Ec3 as <-. rewrite Et2 in Et3. injection Et3 as <-. apply t_conn_edges. apply (TO ts); auto.
        + intros done s3 s3' E3 G3. rewrite E3 in LPk. simpl in LPk. apply IH; auto. eapply keeps_core; eauto. eapply keeps_clus; eauto.
          intros j cj a b Ij Hj Ia. destruct (cl_nodes_keep _ _ _ _ LPk Hj) as (cj2 & H2 & En3). rewrite <- En3 in Ia.
          assert (O3 : others (cl_nodes cj2) s2 s3).
          { destruct (cl_nodes_keep _ _ _ _ MPk H2) as (cj1 & H1 & En4). eapply loopy_others; eauto.
            - intros x Ix. rewrite En2 in Ix. rewrite <- En4. eapply SD; eauto.
            - intros t It. rewrite <- En4. eapply ST; eauto. }
          rewrite (O3 a b Ia). eapply PE2; eauto.
    Qed.

    Lemma reset_pending s s' is : core s (g_all s) -> reset_messages e s = Ret tt s' -> pending s' is.
    Proof.
      intros C Q. pose proof (reset_messages_keeps H (g_all s) e s C) as K. rewrite Q in K. simpl in K.
      unfold reset_messages in Q.
      (* once null, a message stays null *)
      assert (ST : forall a b s1 s2 p, set_act_msg s1 a b None = Ret tt s2 -> (p = (a, b) \/ msg s1 p = None) -> msg s2 p = None).
      { intros a b s1 s2 [x y] Q1 D. destruct (set_act_ret _ _ _ _ _ Q1) as (c & Ac & _). destruct (set_act_msg_spec s1 a b c None Ac) as (z & X1 & X2 & X3 & X4 & X5).
        rewrite Q1 in X1. injection X1 as <-. unfold msg in *. simpl in *. destruct (pair_dec (x, y) (a, b)) as [D'|D']. injection D' as -> ->. rewrite X4. auto.
        rewrite X5 by auto. destruct D; [contradiction|auto]. }
      assert (S1 : forall a l s1 s2, ofold (fun b s => set_act_msg s a b None) l s1 = Ret tt s2 ->
        (forall p, msg s1 p = None -> msg s2 p = None) /\ forall b, In b l -> msg s2 (a, b) = None).
      { intros a. induction l as [|b l IH]; simpl; intros s1 s2 Q1. injection Q1 as <-. split; auto. intros b []. 
        destruct (set_act_msg s1 a b None) as [[] s3| | | |] eqn:Q2; try discriminate. simpl in Q1. destruct (IH _ _ Q1) as [I1 I2]. split.
        - intros p E0. apply I1. eapply ST; eauto.
        - intros b' [<-|I']; auto. apply I1. eapply ST; eauto. }
      assert (S2 : forall l s1 s2, ofold (fun a s => ofold (fun b s => set_act_msg s a b None) (e_ord e a (keys (gsize s) (nd_act (g_node s a)))) s) l s1 = Ret tt s2 ->
        core s1 (g_all s) -> core s2 (g_all s) /\ (forall p, msg s1 p = None -> msg s2 p = None) /\ forall a b, In a l -> msg s2 (a, b) = None).
      { induction l as [|a l IH]; simpl; intros s1 s2 Q1 C1. injection Q1 as <-. splits; auto. intros a b [].
        pose proof (okeeps_fold H (g_all s) (fun b s => set_act_msg s a b None) (e_ord e a (keys (gsize s1) (nd_act (g_node s1 a)))) s1 (fun x s0 _ _ => set_act_msg_keeps H s0 a x None) C1) as K1.
        destruct (ofold (fun b s => set_act_msg s a b None) (e_ord e a (keys (gsize s1) (nd_act (g_node s1 a)))) s1) as [[] s3| | | |] eqn:Q2; try discriminate. simpl in Q1, K1.
        destruct (S1 _ _ _ _ Q2) as [I1 I2]. destruct (IH _ _ Q1 (keeps_core H _ _ _ K1 C1)) as (I0 & I3 & I4). splits; auto. intros a' b [<-|I']; auto. apply I3.
        destruct (act s1 a b) as [c|] eqn:Ac.
        - apply I2. apply ord_In; auto. apply keys_In. split; eauto. apply (co_act _ _ _ C1) in Ac. apply link_lt in Ac. tauto.
        - unfold msg. simpl. pose proof (kp_act _ _ _ K1 a b) as KA. rewrite Ac in KA. destruct (act s3 a b); [discriminate|auto]. }
      assert (S3 : forall cls s1 s2, ofold (fun cl s => ofold (fun a s => ofold (fun b s => set_act_msg s a b None) (e_ord e a (keys (gsize s) (nd_act (g_node s a)))) s) (e_ord e (gsize s) (cl_nodes cl)) s) cls s1 = Ret tt s2 ->
        core s1 (g_all s) -> (forall p, msg s1 p = None -> msg s2 p = None) /\ forall cl a b, In cl cls -> In a (cl_nodes cl) -> msg s2 (a, b) = None).
      { induction cls as [|cl cls IH]; simpl; intros s1 s2 Q1 C1. injection Q1 as <-. split; auto. intros cl a b [].
        match type of Q1 with obind ?o _ = _ => destruct o as [[] s3| | | |] eqn:Q2; try discriminate end. simpl in Q1.
        destruct (S2 _ _ _ Q2 C1) as (C3 & I1 & I2). destruct (IH _ _ Q1 C3) as [I3 I4]. split; auto. intros cl' a b [<-|Ic] Ia; eauto. apply I3, I2. apply ord_In; auto. }
      destruct (S3 _ _ _ Q C) as [_ P]. intros i cl a b _ Hi Ia. destruct (cl_nodes_keep _ _ _ _ K Hi) as (cl0 & H0 & En). apply (P cl0). eapply nth_error_In; eauto. rewrite En; auto.
    Qed.

    Lemma sim_propagate k s s' : core s (g_all s) -> clus s -> (g_pool s <> Some 0) -> geq s s' -> sim (propagate H e k s) (propagate H e' k s').
    Proof.
      intros C CS NP G. unfold propagate, would_need. rewrite (ge_last _ _ G), (ge_pool _ _ G).
      destruct (negb match g_last s with Some r => negb (kind_eqb (pr_kind r) k) | None => true end). apply sim_ret; auto.
      destruct (g_pool s) as [pool|]; [|exact I]. apply sim_bind. exact (sim_reset e s s' G). intros [] s1 s1' E1 G1.
      pose proof (reset_messages_keeps H (g_all s) e s C) as K. rewrite E1 in K. simpl in K. rewrite (ge_cl _ _ G1).
      apply sim_bind. apply (sim_prop_loop (g_all s)); auto.
      - destruct pool; [congruence|lia].
      - apply seq_NoDup.
      - eapply keeps_core; eauto.
      - eapply keeps_clus; eauto.
      - eapply reset_pending; eauto.
      - intros r s2 s2' _ G2. apply sim_ret. constructor; try apply G2. auto.
    Qed.
    Lemma geq_pool s s' p : geq s s' -> geq (set_pool s p) (set_pool s' p).
    Proof. intros G. constructor; try apply G. auto. Qed.
    Lemma sim_scoped k n s s' : core s (g_all s) -> clus s -> (g_pool s <> Some 0) -> geq s s' ->
      sim (scoped_pool n (propagate H e k) s) (scoped_pool n (propagate H e' k) s').
    Proof.
      intros C CS NP G. unfold scoped_pool.
      assert (X : sim (set_pool_size n s) (set_pool_size n s')).
      { unfold set_pool_size. rewrite (ge_pool _ _ G). destruct (g_pool s) as [p|]; simpl; auto. destruct (n =? p). apply sim_ret; auto. destruct (n =? 0); simpl; auto. eexists. split. reflexivity. apply geq_pool; auto. }
      apply sim_bind; auto. intros [] s1 s1' E1 G1.
      assert (Z : keeps H s s1 /\ g_all s1 = g_all s /\ g_pool s1 <> Some 0).
      { unfold set_pool_size in E1. destruct (g_pool s) as [p|] eqn:EP; try discriminate. destruct (Nat.eqb_spec n p). injection E1 as <-. split. apply keeps_refl. split; congruence.
        destruct (Nat.eqb_spec n 0); try discriminate. injection E1 as <-. split. apply keeps_pool. split; simpl; congruence. }
      destruct Z as (K & EA & NP1).
      assert (Y : sim (propagate H e k s1) (propagate H e' k s1')).
      { apply sim_propagate; auto. rewrite EA. eapply keeps_core; eauto. eapply keeps_clus; eauto. }
      destruct (propagate H e k s1) as [a s2|s2| | |]; simpl; auto. destruct Y as (s2' & -> & G2). simpl. eexists. split. reflexivity. apply geq_pool; auto.
    Qed.
    Lemma sim_check k n s s' : core s (g_all s) -> clus s -> (g_pool s <> Some 0) -> geq s s' -> sim (check_propagation H e k n s) (check_propagation H e' k n s').
    Proof.
      intros C CS NP G. unfold check_propagation, would_need. rewrite (ge_last _ _ G). destruct (match g_last s with Some r => _ | None => true end).
      apply sim_scoped; auto. apply sim_ret; auto.
    Qed.
  End Sched.

  (** {1 Queries} *)
  Lemma geq_find s s' v : geq s s' -> find_node s' v = find_node s v.
  Proof. intros G. unfold find_node. rewrite (ge_vars _ _ G). auto. Qed.
  Lemma geq_locate s s' v : geq s s' -> locate s' v = locate s v.
  Proof. intros G. unfold locate. rewrite (geq_find _ _ v G). destruct (find_node s v); auto. rewrite (ge_ev _ _ G), (ge_cl _ _ G). auto. Qed.
  Lemma geq_incoming e s s' a : geq s s' -> incoming e s' a = incoming e s a.
  Proof.
    intros G. unfold incoming. rewrite (ge_merged _ _ G), (geq_keys_act _ _ a G). destruct (nd_merged (g_node s a)); auto. f_equal. f_equal. apply map_ext. intros b. rewrite (ge_act _ _ G). auto.
  Qed.
  Lemma geq_marginal_at e s s' a l : geq s s' -> marginal_at e s' a l = marginal_at e s a l.
  Proof. intros G. unfold marginal_at. rewrite (geq_incoming e s s'), (geq_node_var s s') by auto. auto. Qed.
  Lemma geq_hidden e s s' : geq s s' -> hidden_variables e s' = hidden_variables e s.
  Proof. intros G. unfold hidden_variables. rewrite (ge_vars _ _ G), (ge_cl _ _ G), (geq_size _ _ G). auto. Qed.
  Lemma geq_contrib e s s' inside st al : geq s s' -> contrib_step e s' inside st al = contrib_step e s inside st al.
  Proof.
    intros G. unfold contrib_step. destruct st, al as [a []]; auto. rewrite (ge_merged _ _ G), (geq_keys_act _ _ a G). destruct (nd_merged (g_node s a)); auto.
    rewrite (rmap_ext (fun b => match act s' a b with None => UB | Some c => Ok (if mem b inside then CFac (c_fac c) else CMsg a b) end)
                      (fun b => match act s a b with None => UB | Some c => Ok (if mem b inside then CFac (c_fac c) else CMsg a b) end)); auto.
    intros b. rewrite (ge_act _ _ G). auto.
  Qed.
  Lemma geq_contrib_factor s s' inds c : geq s s' -> contrib_factor H s' inds c = contrib_factor H s inds c.
  Proof.
    intros G. destruct c; simpl; auto. rewrite (ge_merged _ _ G); auto. rewrite (ge_act _ _ G); auto. destruct (vget inds k) as [[a v]| | | |]; auto. cbn [rbind].
    rewrite (geq_node_var _ _ a G). auto.
  Qed.
End Indep.
