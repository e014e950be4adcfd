(** The propagation and the queries keep the structure of the model *)
From Coq Require Import String List Arith Bool Lia Permutation Relations.
From Verif Require Import Res Num Categoric Func FuncProofs GroupProofs FactorProofs FactorApi Special SpecialProofs
  Graph GraphLemmas Clusters Belief Query GraphInv EvidInv.
Import ListNotations.
Open Scope nat_scope.

Lemma NoDup_app_intro {A} (l1 l2 : list A) : NoDup l1 -> NoDup l2 -> (forall x, In x l1 -> In x l2 -> False) -> NoDup (l1 ++ l2).
Proof.
  induction l1 as [|x l1 IH]; simpl; intros N1 N2 D; auto. inversion N1; subst. constructor.
  - rewrite in_app_iff. intros [?|?]; eauto.
  - apply IH; eauto.
Qed.

Section Keeps.
  Context {N : num} (OK : num_ok N).
  Variable H : nat -> func N.
  Hypothesis HG : solids H.
  Notation gst := (gst (N:=N)).
  Notation conn := (conn (N:=N)).
  Implicit Types s : gst.
  Notation core := (core H).
  Notation merged_for := (merged_for H).

  Definition c_key (c : conn) : nat * nat := (c_fac c, c_uid c).

  (** only messages, merged factors and topologies may differ *)
  Record keeps s s' : Prop := {
    kp_vars : g_vars s' = g_vars s;
    kp_ev : g_ev s' = g_ev s;
    kp_all : g_all s' = g_all s;
    kp_iters : g_iters s' = g_iters s;
    kp_next : g_next s' = g_next s;
    kp_un : forall a, nd_un (g_node s' a) = nd_un (g_node s a);
    kp_dis : forall x y, dis s' x y = dis s x y;
    kp_act : forall x y, option_map c_key (act s' x y) = option_map c_key (act s x y);
    kp_cl : map cl_nodes (g_cl s') = map cl_nodes (g_cl s);
    kp_merged : forall a m, nd_merged (g_node s' a) = Some m -> nd_merged (g_node s a) = Some m \/ merged_for s a m;
    kp_topo : forall cl ts, In cl (g_cl s') -> cl_topo cl = Some ts ->
      (exists cl', In cl' (g_cl s) /\ cl_topo cl' = Some ts /\ cl_nodes cl' = cl_nodes cl) \/ topo_ok s (cl_nodes cl) ts
  }.

  Lemma keeps_refl s : keeps s s.
  Proof. constructor; auto. intros cl ts I T. left. eauto. Qed.

  Lemma keeps_uid s s' x y : keeps s s' -> option_map c_uid (act s' x y) = option_map c_uid (act s x y).
  Proof.
    intros K. pose proof (kp_act _ _ K x y) as Q. destruct (act s' x y), (act s x y); simpl in *; try discriminate; auto.
    injection Q as Q1 Q2. congruence.
  Qed.
  Lemma keeps_act s s' x y c : keeps s s' -> act s' x y = Some c -> exists c', act s x y = Some c' /\ c_fac c' = c_fac c /\ c_uid c' = c_uid c.
  Proof.
    intros K E. pose proof (kp_act _ _ K x y) as Q. rewrite E in Q. destruct (act s x y) as [c'|]; simpl in Q; [|discriminate].
    injection Q as Q1 Q2. exists c'. auto.
  Qed.
  Lemma keeps_act' s s' x y c : keeps s s' -> act s x y = Some c -> exists c', act s' x y = Some c' /\ c_fac c' = c_fac c /\ c_uid c' = c_uid c.
  Proof.
    intros K E. pose proof (kp_act _ _ K x y) as Q. rewrite E in Q. destruct (act s' x y) as [c'|]; simpl in Q; [|discriminate].
    injection Q as Q1 Q2. exists c'. auto.
  Qed.
  Lemma keeps_eact s s' x y : keeps s s' -> (eact s' x y <-> eact s x y).
  Proof.
    intros K. split; intros [c E]. apply (keeps_act _ _ _ _ _ K) in E as (c' & E & _). eexists; eauto.
    apply (keeps_act' _ _ _ _ _ K) in E as (c' & E & _). eexists; eauto.
  Qed.
  Lemma keeps_size s s' : keeps s s' -> gsize s' = gsize s.
  Proof. intros K. unfold gsize. rewrite (kp_vars _ _ K). auto. Qed.
  Lemma keeps_keys s s' a : keeps s s' -> keys (gsize s') (nd_act (g_node s' a)) = keys (gsize s) (nd_act (g_node s a)).
  Proof.
    intros K. rewrite (keeps_size _ _ K). apply keys_ext. intros k _. pose proof (kp_act _ _ K a k) as Q. unfold act in Q.
    destruct (nd_act (g_node s' a) k), (nd_act (g_node s a) k); simpl in *; auto; discriminate.
  Qed.
  Lemma keeps_merge_of s s' e a : keeps s s' -> merge_of H e s' a = merge_of H e s a.
  Proof.
    intros K. apply merge_of_ext. apply K. apply K. apply dis_keys_eq. apply keeps_size; auto. apply K. rewrite (kp_vars _ _ K). auto.
  Qed.
  Lemma keeps_merged_for s s' a m : keeps s s' -> (merged_for s' a m <-> merged_for s a m).
  Proof. intros K. unfold GraphInv.merged_for. split; intros (e & He & Em); exists e; split; auto; [rewrite <- (keeps_merge_of s s')|rewrite (keeps_merge_of s s')]; auto. Qed.

  Lemma keeps_trans s1 s2 s3 : keeps s1 s2 -> keeps s2 s3 -> keeps s1 s3.
  Proof.
    intros K L. constructor; try (etransitivity; [apply L|apply K]).
    - intros a m Em. apply L in Em as [Em|Em]. apply K in Em; auto. right. apply (keeps_merged_for s1 s2) in Em; auto.
    - intros cl ts I T. destruct (kp_topo _ _ L cl ts I T) as [(cl' & I' & T' & E')|T'].
      + destruct (kp_topo _ _ K cl' ts I' T') as [(cl2 & I2 & T2 & E2)|T2].
        * left. exists cl2. splits; auto. congruence.
        * right. rewrite <- E'. auto.
      + right. eapply topo_ok_ext; [|exact T']. intros x y _. symmetry. apply keeps_uid; auto.
  Qed.

  Lemma keeps_core s s' fs : keeps s s' -> core s fs -> core s' fs.
  Proof.
    intros K C.
    assert (VA : forall x w, var_at s' x w <-> var_at s x w) by (intros; unfold var_at; rewrite (kp_vars _ _ K); tauto).
    assert (LK : forall x y g, link H s fs x y g -> link H s' fs x y g).
    { intros x y g. apply link_mono; auto using incl_refl; intros; apply VA; auto. }
    constructor.
    - rewrite (kp_vars _ _ K). apply C.
    - rewrite (kp_vars _ _ K). apply C.
    - rewrite (kp_ev _ _ K). intros a k E. destruct (co_ev _ _ _ C a k E) as (v & Hv & L). exists v. rewrite VA; auto.
    - intros x y c E. apply (keeps_act _ _ _ _ _ K) in E as (c' & E & <- & _). apply LK. eapply co_act; eauto.
    - intros x y c E. apply (keeps_act _ _ _ _ _ K) in E as (c' & E & <- & _).
      destruct (co_act_sym _ _ _ C _ _ _ E) as (d & Ed & <-). apply (keeps_act' _ _ _ _ _ K) in Ed as (d' & Ed & Ef & _). eauto.
    - intros x y c. rewrite (kp_dis _ _ K). intros E. apply LK. eapply co_dis; eauto.
    - intros x y c. rewrite !(kp_dis _ _ K). apply C.
    - intros x y c d E. rewrite (kp_dis _ _ K). apply (keeps_act _ _ _ _ _ K) in E as (c' & E & _). eapply co_excl; eauto.
    - intros x y. rewrite (kp_ev _ _ K), (kp_dis _ _ K). apply C.
    - intros x y. rewrite (kp_ev _ _ K). intros Ex Ey. destruct (act s' x y) eqn:Q; auto. apply (keeps_act _ _ _ _ _ K) in Q as (c' & Q & _).
      rewrite (co_oo _ _ _ C) in Q; auto. discriminate.
    - intros a g. rewrite (kp_un _ _ K). intros I. destruct (co_un _ _ _ C a g I) as (J & v & Hv & Ev). split; auto. exists v. rewrite VA. auto.
    - intros a. rewrite (kp_un _ _ K). apply C.
    - apply C.
    - intros g I. destruct (co_fac _ _ _ C g I) as [(u & x & Eu & Hu & Hi)|(wa & wb & x & y & c & Eg & Hx & Hy & Hc & Ec)].
      + left. exists u, x. rewrite (kp_un _ _ K), VA. auto.
      + right. destruct Hc as [Hc|Hc].
        * apply (keeps_act' _ _ _ _ _ K) in Hc as (c' & Hc & Ef & _). exists wa, wb, x, y, c'. rewrite !VA. splits; auto. congruence.
        * exists wa, wb, x, y, c. rewrite !VA, (kp_dis _ _ K). splits; auto.
    - intros x y c k v. rewrite (kp_ev _ _ K), (kp_dis _ _ K), VA. apply C.
    - intros a m. rewrite (kp_ev _ _ K). intros E Em. apply (keeps_merged_for s s'); auto. apply K in Em as [Em|Em]; auto. apply C; auto.
  Qed.

  Lemma keeps_clus s s' : keeps s s' -> clus s -> clus s'.
  Proof.
    intros K [C1 C2]. constructor.
    - rewrite (kp_cl _ _ K). rewrite (hid_ext s s'); [|apply K|apply keeps_size; auto].
      eapply components_ext; [|exact C1]. intros x y _ _. symmetry. apply keeps_eact; auto.
    - intros cl ts I T. eapply topo_ok_ext; [intros x y _; apply (keeps_uid _ _ x y K)|].
      destruct (kp_topo _ _ K cl ts I T) as [(cl' & I' & T' & <-)|T']; auto.
  Qed.

  Lemma keeps_clean s s' : keeps s s' -> clean s -> clean s'.
  Proof. intros K CL x y E. rewrite (kp_ev _ _ K). apply CL. apply (keeps_eact s s'); auto. Qed.

  (** {1 Outcomes} *)
  Definition okeeps {A} s (o : out gst A) : Prop :=
    match o with Ret _ s' => keeps s s' | Thr s' => keeps s s' | _ => True end.

  Lemma okeeps_bind {A B} s (o : out gst A) (f : A -> gst -> out gst B) :
    okeeps s o -> (forall a s', o = Ret a s' -> keeps s s' -> okeeps s' (f a s')) -> okeeps s (obind o f).
  Proof.
    destruct o; simpl; intros K L; auto. specialize (L a s0 eq_refl K).
    destruct (f a s0); simpl in *; auto; eapply keeps_trans; eauto.
  Qed.
  Lemma okeeps_lift {A} s (r : res A) : okeeps s (lift r s).
  Proof. destruct r; simpl; auto; apply keeps_refl. Qed.
  Lemma okeeps_fold {A} fs (f : A -> gst -> out gst unit) l s :
    (forall x s, In x l -> core s fs -> okeeps s (f x s)) -> core s fs -> okeeps s (ofold f l s).
  Proof.
    revert s; induction l as [|x l IH]; simpl; intros s F C. apply keeps_refl.
    apply okeeps_bind; auto. intros _ s' _ K. apply IH; auto. eapply keeps_core; eauto.
  Qed.
  Lemma okeeps_from {A} s s' (o : out gst A) : keeps s s' -> okeeps s' o -> okeeps s o.
  Proof. destruct o; simpl; auto; intros; eapply keeps_trans; eauto. Qed.

  Lemma set_act_msg_keeps s a b m : okeeps s (set_act_msg s a b m).
  Proof.
    unfold set_act_msg. destruct (act s a b) as [c|] eqn:Q; simpl; auto. constructor; auto; simpl.
    - intros x. unfold fupd. destruct (Nat.eqb_spec x a); subst; auto.
    - intros x y. unfold dis. simpl. unfold fupd. destruct (Nat.eqb_spec x a); subst; auto.
    - intros x y. unfold act in *. simpl. unfold fupd. destruct (Nat.eqb_spec x a); subst; auto. simpl.
      unfold fupd. destruct (Nat.eqb_spec y b); subst; auto. rewrite Q. reflexivity.
    - intros x m'. unfold fupd. destruct (Nat.eqb_spec x a); subst; simpl; auto.
    - intros cl ts I T. left. eauto.
  Qed.

  Lemma set_merged_keeps s a m : merged_for s a m -> keeps s (set_merged s a m).
  Proof.
    intros M. constructor; auto; simpl.
    - intros x. unfold fupd. destruct (Nat.eqb_spec x a); subst; auto.
    - intros x y. unfold dis. simpl. unfold fupd. destruct (Nat.eqb_spec x a); subst; auto.
    - intros x y. unfold act. simpl. unfold fupd. destruct (Nat.eqb_spec x a); subst; auto.
    - intros x m'. unfold fupd. destruct (Nat.eqb_spec x a); subst; simpl; auto. intros [= <-]. auto.
    - intros cl ts I T. left. eauto.
  Qed.

  Lemma update_merged_eq e a s : update_merged H e a s = do (m, s) <- lift (merge_of H e s a) s ;; Ret tt (set_merged s a m).
  Proof.
    unfold update_merged, merge_of. destruct (gather_unaries H e s a); auto. destruct (node_var s a); auto.
  Qed.
  Lemma update_merged_keeps e a s : env_ok e -> okeeps s (update_merged H e a s).
  Proof.
    intros E. rewrite update_merged_eq. destruct (merge_of H e s a) as [m| | | |] eqn:Q; simpl; auto.
    - apply set_merged_keeps. exists e. auto.
    - apply keeps_refl.
  Qed.

  (** {1 Topology} *)
  Lemma rmap_deps s a l : (forall k, In k l -> exists d, act s a k = Some d) ->
    exists ds, rmap (fun k => match act s a k with Some d => Ok (k, c_uid d) | None => UB end) l = Ok ds /\
      map fst ds = l /\ forall k u, In (k, u) ds <-> In k l /\ exists d, act s a k = Some d /\ c_uid d = u.
  Proof.
    induction l as [|k l IH]; intros F.
    - exists []. splits; auto. intros k u. simpl. tauto.
    - destruct (F k (or_introl eq_refl)) as [d Ed]. destruct IH as (ds & E1 & E2 & E3); [intros; apply F; simpl; auto|].
      simpl. rewrite Ed. simpl. rewrite E1. simpl. exists ((k, c_uid d) :: ds). splits; auto.
      + simpl. rewrite E2. auto.
      + intros k' u. simpl. rewrite E3. split.
        * intros [[= <- <-]|[I Q]]; [split; eauto|split; auto].
        * intros [[<-|I] (d' & Q & <-)]; [left; congruence|right; eauto].
  Qed.

  Lemma sender_topo_ok s fs e a : core s fs -> env_ok e -> exists ts, sender_topo e s a = Ok ts /\
    map t_edge ts = map (pair a) (e_ord e a (keys (gsize s) (nd_act (g_node s a)))) /\ (forall t, In t ts -> entry_ok s t).
  Proof.
    intros C E. unfold sender_topo. set (ks := e_ord e a (keys (gsize s) (nd_act (g_node s a)))).
    assert (KI : forall k, In k ks <-> exists c, act s a k = Some c).
    { intros k. unfold ks. rewrite ord_In, keys_In by auto. split. intros [_ Q]; auto.
      intros [c Q]. split; eauto. apply (co_act _ _ _ C) in Q. apply link_lt in Q. tauto. }
    assert (ND : NoDup ks) by (apply ord_NoDup, keys_NoDup; auto).
    assert (G : forall l, incl l ks -> exists ts,
      rmap (fun r => match act s r a with
                     | None => UB
                     | Some c => let* deps := rmap (fun k => match act s a k with Some d => Ok (k, c_uid d) | None => UB end)
                                               (e_ord e r (filter (fun k => negb (k =? r)) ks)) in
                                 Ok (mkTopo a r (c_uid c) deps) end) l = Ok ts /\
      map t_edge ts = map (pair a) l /\ (forall t, In t ts -> entry_ok s t)).
    { induction l as [|r l IH]; intros I.
      - exists []. splits; auto. intros t [].
      - destruct IH as (ts & E1 & E2 & E3); [intros x Hx; apply I; simpl; auto|].
        destruct (proj1 (KI r) (I r (or_introl eq_refl))) as [c0 Q0]. destruct (co_act_sym _ _ _ C _ _ _ Q0) as (c & Q & _).
        destruct (rmap_deps s a (e_ord e r (filter (fun k => negb (k =? r)) ks))) as (ds & D1 & D2 & D3).
        { intros k Hk. apply ord_In in Hk; auto. apply filter_In in Hk as [Hk _]. apply KI; auto. }
        simpl. rewrite Q. cbn [rbind]. rewrite D1. cbn [rbind]. rewrite E1. cbn [rbind].
        eexists. split; [reflexivity|]. split.
        + simpl. rewrite E2. reflexivity.
        + intros t [<-|Ht]; auto. split; [|split]; simpl.
          * eauto.
          * rewrite D2. apply ord_NoDup; auto. apply NoDup_filter; auto.
          * intros k u. rewrite D3, ord_In, filter_In, negb_true_iff, Nat.eqb_neq, KI by auto. split.
            -- intros [[_ Nk] Q']. auto.
            -- intros [Nk (d & Q' & <-)]. split; eauto. }
    apply G, incl_refl.
  Qed.

  Lemma entry_ok_ext s s' t : (forall x y, option_map c_uid (act s' x y) = option_map c_uid (act s x y)) -> entry_ok s t -> entry_ok s' t.
  Proof.
    intros E (A & B & D). assert (EX : forall x y u, ((exists c, act s' x y = Some c /\ c_uid c = u) <-> (exists c, act s x y = Some c /\ c_uid c = u))).
    { intros x y u. specialize (E x y). destruct (act s' x y), (act s x y); simpl in E; try discriminate.
      - injection E as E. split; intros (? & [= <-] & <-); eauto.
      - split; intros (? & ? & _); discriminate. }
    split; [|split]; auto. apply EX; auto. intros k u. rewrite D, EX. tauto.
  Qed.

  Lemma topo_loop_ok fs e nodes : env_ok e -> forall acc s, core s fs -> okeeps s (topo_loop H e nodes acc s) /\
    forall ts s', topo_loop H e nodes acc s = Ret ts s' -> exists more, ts = acc ++ more /\
      map t_edge more = flat_map (fun a => map (pair a) (e_ord e a (keys (gsize s) (nd_act (g_node s a))))) nodes /\
      (forall t, In t more -> entry_ok s t).
  Proof.
    intros E. induction nodes as [|a nodes IH]; intros acc s C.
    - split. apply keeps_refl. intros ts s' [= <- <-]. exists []. rewrite app_nil_r. splits; auto. intros t [].
    - cbn [topo_loop]. pose proof (update_merged_keeps e a s E) as K1. destruct (update_merged H e a s) as [[] s1|s1| | |]; cbn [obind].
      2-5: (split; [exact K1|intros; discriminate]).
      simpl in K1. assert (C1 : core s1 fs) by (eapply keeps_core; eauto).
      destruct (sender_topo_ok s1 fs e a C1 E) as (ts1 & -> & E1 & E2). cbn [lift obind].
      destruct (IH (acc ++ ts1) s1 C1) as [K2 T2]. split. eapply okeeps_from; eauto.
      intros ts s' Q. destruct (T2 ts s' Q) as (more & -> & M1 & M2). exists (ts1 ++ more). rewrite app_assoc. splits; auto.
      + rewrite map_app, E1, M1. simpl. rewrite (keeps_keys s s1 a K1). f_equal.
        clear - K1. induction nodes as [|b l IHl]; simpl; auto. rewrite (keeps_keys s s1 b K1), IHl. auto.
      + intros t I. apply in_app_iff in I as [I|I].
        * eapply entry_ok_ext; [|apply E2; eauto]. intros x y. symmetry. apply keeps_uid; auto.
        * eapply entry_ok_ext; [|apply M2; eauto]. intros x y. symmetry. apply keeps_uid; auto.
  Qed.

  Lemma edges_topo s fs e nodes l ts : core s fs -> env_ok e -> NoDup nodes -> Permutation l nodes ->
    map t_edge ts = flat_map (fun a => map (pair a) (e_ord e a (keys (gsize s) (nd_act (g_node s a))))) l ->
    (forall t, In t ts -> entry_ok s t) -> topo_ok s nodes ts.
  Proof.
    intros C E ND P EQ EN. assert (NDl : NoDup l) by (eapply perm_NoDup; eauto).
    constructor; auto.
    - rewrite EQ. clear - E NDl. induction l as [|a l IH]; simpl. constructor. inversion NDl as [|? ? Na ND]; subst.
      assert (N1 : NoDup (map (pair a) (e_ord e a (keys (gsize s) (nd_act (g_node s a)))))).
      { apply FinFun.Injective_map_NoDup. intros x y Q; congruence. apply ord_NoDup, keys_NoDup; auto. }
      apply NoDup_app_intro; auto. intros p I J. apply in_map_iff in I as (k & <- & _). apply in_flat_map in J as (b & I & J).
      apply in_map_iff in J as (k' & [= -> ->] & _). auto.
    - intros x y. rewrite EQ, in_flat_map. split.
      + intros (a & I & J). apply in_map_iff in J as (k & [= -> ->] & J). rewrite <- P. split; auto.
        apply ord_In in J; auto. apply keys_In in J as (_ & c & Q). exists c. auto.
      + intros [I [c Q]]. exists x. split. rewrite P; auto. apply in_map_iff. exists y. split; auto. apply ord_In; auto. apply keys_In.
        split; eauto. apply (co_act _ _ _ C) in Q. apply link_lt in Q. tauto.
  Qed.

  Lemma update_connectivity_keeps fs e i s : env_ok e -> core s fs -> clus s -> okeeps s (update_connectivity H e i s).
  Proof.
    intros E C CS. unfold update_connectivity, get_cl, vget. destruct (nth_error (g_cl s) i) as [cl|] eqn:Hi; cbn [lift obind]; [|exact I].
    destruct (topo_loop_ok fs e (e_ord e (gsize s) (cl_nodes cl)) E [] s C) as [K T].
    destruct (topo_loop H e (e_ord e (gsize s) (cl_nodes cl)) [] s) as [ts s1|s1| | |]; cbn [obind]; auto.
    destruct (T ts s1 eq_refl) as (more & -> & M1 & M2). simpl in K |- *.
    assert (TO : topo_ok s (cl_nodes cl) more).
    { apply (edges_topo s fs e (cl_nodes cl) (e_ord e (gsize s) (cl_nodes cl)) more); auto; [|apply E].
      pose proof (clus_nodup s CS) as ND. apply nth_error_split in Hi as (l1 & l2 & El & _). rewrite El in ND.
      rewrite map_app, concat_app in ND. simpl in ND. apply NoDup_app_parts in ND as [_ ND]. apply NoDup_app_parts in ND. tauto. }
    destruct K as [K1 K2 K3 K4 K5 K6 K7 K8 K9 K10 K11]. constructor; auto; simpl.
    - rewrite map_lset, K9. simpl. apply lset_same. rewrite nth_error_map, Hi. reflexivity.
    - intros cl' ts I Ht. apply In_lset in I as [->|I]; auto. simpl in Ht. injection Ht as <-. auto.
  Qed.

  (** {1 Messages} *)
  Lemma update_message_keeps k t s : okeeps s (update_message H k t s).
  Proof.
    unfold update_message. destruct (nd_merged _) as [mu|]; [|apply keeps_refl].
    apply okeeps_bind. apply okeeps_lift. intros ms s1 _ _. destruct ms as [ms|]; [|apply keeps_refl].
    apply okeeps_bind. apply okeeps_lift. intros mg s2 _ _.
    apply okeeps_bind. apply okeeps_lift. intros c s3 _ _.
    apply okeeps_bind. apply okeeps_lift. intros m s4 _ _.
    apply okeeps_bind. apply set_act_msg_keeps. intros _ s5 _ _.
    destruct (c_msg c); [|apply keeps_refl]. apply okeeps_bind. apply okeeps_lift. intros d s6 _ _. apply keeps_refl.
  Qed.

  Lemma reset_messages_keeps fs e s : core s fs -> okeeps s (reset_messages e s).
  Proof.
    intros C. unfold reset_messages. eapply okeeps_fold; eauto. intros cl s1 _ C1. eapply okeeps_fold; eauto.
    intros a s2 _ C2. eapply okeeps_fold; eauto. intros b s3 _ _. apply set_act_msg_keeps.
  Qed.

  Lemma mp_loop_keeps fs n e pool k : forall l s, core s fs -> okeeps s (mp_loop H n e pool k l s).
  Proof.
    induction n as [|n IH]; intros [|t l] s C; cbn [mp_loop]; try apply keeps_refl. exact I.
    apply okeeps_bind. apply okeeps_lift. intros [ready wait] s1 _ K1. destruct ready as [|r0 r]; [apply keeps_refl|].
    apply okeeps_bind.
    - eapply okeeps_fold; [|eapply keeps_core; eauto]. intros x s2 _ C2. apply okeeps_bind. apply update_message_keeps.
      intros _ s3 _ _. apply keeps_refl.
    - intros _ s2 _ K2. apply IH. eapply keeps_core; eauto. eapply keeps_core; eauto.
  Qed.
  Lemma message_passing_keeps fs e pool k i s : core s fs -> okeeps s (message_passing H e pool k i s).
  Proof.
    intros C. unfold message_passing. apply okeeps_bind. apply okeeps_lift. intros cl s1 _ K1.
    destruct (cl_topo cl); [|apply keeps_refl]. eapply mp_loop_keeps. eapply keeps_core; eauto.
  Qed.

  Lemma loopy_tasks_keeps k l : forall v s, okeeps s (loopy_tasks H k l v s).
  Proof.
    induction l as [|t l IH]; intros v s; cbn [loopy_tasks]. apply keeps_refl.
    apply okeeps_bind. apply update_message_keeps. intros [x|] s1 _ _; [apply IH|apply keeps_refl].
  Qed.
  Lemma loopy_sweep_keeps e pool k bs : forall v s, okeeps s (loopy_sweep H e pool k bs v s).
  Proof.
    induction bs as [|b bs IH]; intros v s; cbn [loopy_sweep]. apply keeps_refl.
    apply okeeps_bind. apply loopy_tasks_keeps. intros x s1 _ _. apply IH.
  Qed.
  Lemma loopy_iter_keeps n e pool k bs : forall s, okeeps s (loopy_iter H n e pool k bs s).
  Proof.
    induction n as [|n IH]; intros s; cbn [loopy_iter]. apply keeps_refl.
    apply okeeps_bind. apply loopy_sweep_keeps. intros v s1 _ _. destruct (below_tolerance v); [apply keeps_refl|apply IH].
  Qed.
  Lemma set_ones_keeps fs e cl s : core s fs -> okeeps s (set_ones e cl s).
  Proof.
    intros C. unfold set_ones. eapply okeeps_fold; eauto. intros a s1 _ C1. apply okeeps_bind. apply okeeps_lift.
    intros v s2 _ K2. eapply okeeps_fold; [|eapply keeps_core; eauto]. intros b s3 _ _. apply set_act_msg_keeps.
  Qed.
  Lemma loopy_propagate_keeps fs e pool k i s : core s fs -> okeeps s (loopy_propagate H e pool k i s).
  Proof.
    intros C. unfold loopy_propagate. apply okeeps_bind. apply okeeps_lift. intros cl s1 _ K1.
    apply okeeps_bind. eapply set_ones_keeps; eapply keeps_core; eauto. intros _ s2 _ _.
    destruct (cl_topo cl); [|apply keeps_refl]. apply okeeps_bind. apply okeeps_lift. intros bs s3 _ _. apply loopy_iter_keeps.
  Qed.

  Lemma prepare_keeps fs e i s : env_ok e -> core s fs -> clus s -> okeeps s (prepare H e i s).
  Proof.
    intros E C CS. unfold prepare. destruct (get_cl s i) as [cl| | | |]; cbn [lift obind]; try exact I; try apply keeps_refl.
    destruct (cl_topo cl); [|eapply update_connectivity_keeps; eauto].
    eapply okeeps_fold; eauto. intros a s2 _ _. destruct (nd_merged _); [apply keeps_refl|apply update_merged_keeps; auto].
  Qed.

  Lemma prop_loop_keeps fs e pool k is : env_ok e -> forall r s, core s fs -> clus s -> okeeps s (prop_loop H e pool k is r s).
  Proof.
    intros E. induction is as [|i is IH]; intros r s C CS; cbn [prop_loop]. apply keeps_refl.
    apply okeeps_bind. eapply prepare_keeps; eauto. intros _ s1 _ K1.
    assert (C1 : core s1 fs) by (eapply keeps_core; eauto). assert (CS1 : clus s1) by (eapply keeps_clus; eauto).
    destruct (get_cl s1 i) as [cl| | | |]; cbn [lift obind]; try exact I; try apply keeps_refl.
    apply okeeps_bind. eapply message_passing_keeps; eauto. intros tree s2 _ K2.
    assert (C2 : core s2 fs) by (eapply keeps_core; eauto). assert (CS2 : clus s2) by (eapply keeps_clus; eauto).
    destruct tree. apply IH; auto.
    apply okeeps_bind. eapply loopy_propagate_keeps; eauto. intros done s3 _ K3.
    apply IH. eapply keeps_core; eauto. eapply keeps_clus; eauto.
  Qed.

  Lemma keeps_last s l : keeps s (set_last s l).
  Proof. constructor; auto. simpl. intros cl ts I T. left. eauto. Qed.
  Lemma keeps_pool s p : keeps s (set_pool s p).
  Proof. constructor; auto. simpl. intros cl ts I T. left. eauto. Qed.

  Lemma propagate_keeps fs e k s : env_ok e -> core s fs -> clus s -> okeeps s (propagate H e k s).
  Proof.
    intros E C CS. unfold propagate. destruct (negb (would_need s k)); [apply keeps_refl|].
    destruct (g_pool s) as [pool|]; [|apply keeps_refl].
    apply okeeps_bind. eapply reset_messages_keeps; eauto. intros _ s1 _ K1.
    assert (C1 : core s1 fs) by (eapply keeps_core; eauto). assert (CS1 : clus s1) by (eapply keeps_clus; eauto).
    apply okeeps_bind. eapply prop_loop_keeps; eauto. intros r s2 _ K2. apply keeps_last.
  Qed.

  Lemma scoped_keeps {A} n (body : gst -> out gst A) s : (forall s', keeps s s' -> okeeps s' (body s')) -> okeeps s (scoped_pool n body s).
  Proof.
    intros B. unfold scoped_pool. apply okeeps_bind.
    - unfold set_pool_size. destruct (g_pool s) as [p|]; [|exact I]. destruct (n =? p); [apply keeps_refl|].
      destruct (n =? 0); apply keeps_pool.
    - intros _ s1 _ K1. specialize (B s1 K1). destruct (body s1); simpl in *; auto; (eapply keeps_trans; [exact B|apply keeps_pool]).
  Qed.
  Lemma check_propagation_keeps fs e k n s : env_ok e -> core s fs -> clus s -> okeeps s (check_propagation H e k n s).
  Proof.
    intros E C CS. unfold check_propagation. destruct (would_need s k); [|apply keeps_refl].
    apply scoped_keeps. intros s' K. eapply propagate_keeps; eauto. eapply keeps_core; eauto. eapply keeps_clus; eauto.
  Qed.

  Lemma marginal_query_keeps fs e k v n s : env_ok e -> core s fs -> clus s -> okeeps s (marginal_query H e k v n s).
  Proof.
    intros E C CS. unfold marginal_query. apply okeeps_bind. eapply check_propagation_keeps; eauto.
    intros _ s1 _ _. destruct (locate s1 v) as [[a l]|]; [apply okeeps_lift|apply keeps_refl].
  Qed.
  Lemma get_marginal_keeps fs e v n s : env_ok e -> core s fs -> clus s -> okeeps s (get_marginal H e v n s).
  Proof. apply marginal_query_keeps. Qed.
  Lemma get_marginal_name_keeps fs e v n s : env_ok e -> core s fs -> clus s -> okeeps s (get_marginal_name H e v n s).
  Proof.
    intros E C CS. unfold get_marginal_name. destruct (find_variable s v); cbn [lift obind]; try exact I; try apply keeps_refl.
    eapply get_marginal_keeps; eauto.
  Qed.
  Lemma get_map_keeps fs e v n s : env_ok e -> core s fs -> clus s -> okeeps s (get_map H e v n s).
  Proof. intros E C CS. unfold get_map. apply okeeps_bind. eapply marginal_query_keeps; eauto. intros vals s1 _ _. apply okeeps_lift. Qed.
  Lemma get_map_name_keeps fs e v n s : env_ok e -> core s fs -> clus s -> okeeps s (get_map_name H e v n s).
  Proof.
    intros E C CS. unfold get_map_name. destruct (find_variable s v); cbn [lift obind]; try exact I; try apply keeps_refl.
    eapply get_map_keeps; eauto.
  Qed.
  Lemma get_hidden_map_keeps fs e n s : env_ok e -> core s fs -> clus s -> okeeps s (get_hidden_map H e n s).
  Proof. intros E C CS. unfold get_hidden_map. apply okeeps_bind. eapply check_propagation_keeps; eauto. intros _ s1 _ _. apply okeeps_lift. Qed.
  Lemma get_joint_keeps fs e g n s : env_ok e -> core s fs -> clus s -> okeeps s (get_joint H e g n s).
  Proof.
    intros E C CS. unfold get_joint. apply okeeps_bind. eapply check_propagation_keeps; eauto. intros _ s1 _ _.
    apply okeeps_bind. apply okeeps_lift. intros locs s2 _ _. apply okeeps_lift.
  Qed.
  Lemma get_joint_names_keeps fs e g n s : env_ok e -> core s fs -> clus s -> okeeps s (get_joint_names H e g n s).
  Proof.
    intros E C CS. unfold get_joint_names. destruct (rmap (find_variable s) g); cbn [lift obind]; try exact I; try apply keeps_refl.
    destruct (group_ctor _); cbn [lift obind]; try exact I; try apply keeps_refl. eapply get_joint_keeps; eauto.
  Qed.
End Keeps.
