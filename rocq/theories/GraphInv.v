(** Invariants of the graph and their preservation by the insertion of factors
    and by the methods that set and remove evidences *)
From Coq Require Import String List Arith Bool Lia Permutation Relations.
From Verif Require Import Res Num Categoric Func FuncProofs GroupProofs FactorProofs FactorApi Special SpecialProofs
  Graph GraphLemmas Clusters Belief.
Import ListNotations.
Open Scope nat_scope.

Lemma nth_error_snoc {A} (l : list A) x i y :
  nth_error (l ++ [x]) i = Some y <-> nth_error l i = Some y \/ (i = length l /\ y = x).
Proof.
  destruct (Nat.lt_trichotomy i (length l)) as [H|[->|H]].
  - rewrite nth_error_app1 by auto. split; auto. intros [?|[? _]]; auto. lia.
  - rewrite nth_error_app2, Nat.sub_diag by lia. simpl. split.
    + intros [= ->]. auto.
    + intros [H|[_ ->]]; auto. exfalso. assert (length l < length l) by (apply nth_error_Some; congruence). lia.
  - rewrite nth_error_app2 by lia. destruct (i - length l) eqn:E; [lia|]. simpl. split.
    + destruct n; discriminate.
    + intros [Q|[? _]]; [|lia]. exfalso. assert (i < length l) by (apply nth_error_Some; congruence). lia.
Qed.

Lemma nth_error_lt {A} (l : list A) i x : nth_error l i = Some x -> i < length l.
Proof. intros H. apply nth_error_Some. congruence. Qed.

Lemma components_ext (A B : nat -> nat -> Prop) dom res :
  (forall x y, In x dom -> In y dom -> (A x y <-> B x y)) -> components A dom res -> components B dom res.
Proof.
  intros E [H1 H2 H3 H4]. assert (HD : forall c x, In c res -> In x c -> In x dom).
  { intros c x Hc Hx. rewrite <- H1. apply in_concat. eauto. }
  constructor; auto.
  - intros c x y Hc Hx Hxy Hy. apply (H3 c x y); auto. apply E; eauto.
  - intros c x y Hc Hx Hy. eapply linked_mono; [| |apply (H4 c); eauto]; auto.
    intros u v Hu Hv Huv. apply E; auto.
Qed.

Section Inv.
  Context {N : num} (OK : num_ok N).
  Variable H : nat -> func N.
  Hypothesis HG : solids H.
  Notation gst := (gst (N:=N)).
  Implicit Types s : gst.

  (** {1 Invariants} *)

  Definition var_at s a v : Prop := nth_error (g_vars s) a = Some v.

  (** [f] is a factor on the variables of the nodes [a] and [b] *)
  Definition link s (fs : list nat) a b f : Prop :=
    a <> b /\ In f fs /\ exists va vb, var_at s a va /\ var_at s b vb /\
      (fvars H f = [va; vb] \/ fvars H f = [vb; va]).

  Definition placed s f : Prop :=
    (exists v a, fvars H f = [v] /\ var_at s a v /\ In f (nd_un (g_node s a))) \/
    (exists va vb a b c, fvars H f = [va; vb] /\ var_at s a va /\ var_at s b vb /\
       (act s a b = Some c \/ dis s a b = Some c) /\ c_fac c = f).

  Definition merge_of (e : env) s a : res (func N) :=
    match gather_unaries H e s a with
    | [] => let* v := node_var s a in Ok (merged_var v)
    | l => merged_unaries l
    end.
  Definition merged_for s a m : Prop := exists e, env_ok e /\ merge_of e s a = Ok m.

  Record core s (fs : list nat) : Prop := {
    co_vars : NoDup (map vkey (g_vars s));
    co_made : Forall made (g_vars s);
    co_ev : forall a k, g_ev s a = Some k -> exists v, var_at s a v /\ k < vsize v;
    co_act : forall a b c, act s a b = Some c -> link s fs a b (c_fac c);
    co_act_sym : forall a b c, act s a b = Some c -> exists c', act s b a = Some c' /\ c_fac c' = c_fac c;
    co_dis : forall a b c, dis s a b = Some c -> link s fs a b (c_fac c);
    co_dis_sym : forall a b c, dis s a b = Some c -> exists c', dis s b a = Some c' /\ c_fac c' = c_fac c;
    co_excl : forall a b c d, act s a b = Some c -> dis s a b = Some d -> False;
    co_hh : forall a b, g_ev s a = None -> g_ev s b = None -> dis s a b = None;
    co_oo : forall a b, g_ev s a <> None -> g_ev s b <> None -> act s a b = None;
    co_un : forall a f, In f (nd_un (g_node s a)) -> In f fs /\ exists v, var_at s a v /\ fvars H f = [v];
    co_und : forall a, NoDup (nd_un (g_node s a));
    co_fs : NoDup fs;
    co_fac : forall f, In f fs -> placed s f;
    co_msg : forall a b c k v, g_ev s a = None -> g_ev s b = Some k -> dis s a b = Some c -> var_at s b v ->
      exists m, c_msg c = Some m /\ evidence_factor (H (c_fac c)) v k = Ok m;
    co_merged : forall a m, g_ev s a = None -> nd_merged (g_node s a) = Some m -> merged_for s a m
  }.

  Definition eact s x y : Prop := exists c, act s x y = Some c.
  Definition hid s : list nat := filter (fun a => negb (is_some (g_ev s a))) (seq 0 (gsize s)).

  Lemma hid_In s a : In a (hid s) <-> a < gsize s /\ g_ev s a = None.
  Proof.
    unfold hid. rewrite filter_In, in_seq, negb_true_iff, is_some_false. split; intros [? ?]; split; auto; lia.
  Qed.
  Lemma hid_NoDup s : NoDup (hid s).
  Proof. apply NoDup_filter, seq_NoDup. Qed.

  (** a stored topology describes the active connections of the nodes *)
  Definition entry_ok s (t : topo) : Prop :=
    (exists c, act s (t_rcv t) (t_snd t) = Some c /\ c_uid c = t_uid t) /\
    NoDup (map fst (t_deps t)) /\
    forall k u, In (k, u) (t_deps t) <-> k <> t_rcv t /\ exists d, act s (t_snd t) k = Some d /\ c_uid d = u.
  Definition t_edge (t : topo) : nat * nat := (t_snd t, t_rcv t).
  Record topo_ok s (nodes : list nat) (ts : list topo) : Prop := {
    tk_nd : NoDup (map t_edge ts);
    tk_edges : forall a b, In (a, b) (map t_edge ts) <-> In a nodes /\ eact s a b;
    tk_entry : forall t, In t ts -> entry_ok s t
  }.

  Record clus s : Prop := {
    cs_comp : components (eact s) (hid s) (map cl_nodes (g_cl s));
    cs_topo : forall cl ts, In cl (g_cl s) -> cl_topo cl = Some ts -> topo_ok s (cl_nodes cl) ts
  }.

  (** no connection of an observed node is active *)
  Definition clean s : Prop := forall x y, eact s x y -> g_ev s x = None /\ g_ev s y = None.

  Definition inv s : Prop := core s (g_all s) /\ clus s.

  (** {1 Consequences} *)
  Lemma var_at_lt s a v : var_at s a v -> a < gsize s.
  Proof. apply nth_error_lt. Qed.
  Lemma var_at_ex s a : a < gsize s -> exists v, var_at s a v.
  Proof. intros L. unfold var_at. destruct (nth_error (g_vars s) a) eqn:E; eauto. apply nth_error_None in E. unfold gsize in L. lia. Qed.
  Lemma var_at_fun s a v w : var_at s a v -> var_at s a w -> v = w.
  Proof. unfold var_at. congruence. Qed.
  Lemma var_at_inj s a b v w : NoDup (map vkey (g_vars s)) -> var_at s a v -> var_at s b w -> vkey v = vkey w -> a = b /\ v = w.
  Proof.
    intros ND Ha Hb E. assert (a = b).
    { pose proof (var_at_lt _ _ _ Ha) as L. unfold gsize in L.
      eapply (NoDup_nth_error (map vkey (g_vars s))); eauto.
      rewrite map_length; auto. unfold var_at in *. rewrite !nth_error_map, Ha, Hb. simpl. congruence. }
    subst. split; auto. eapply var_at_fun; eauto.
  Qed.

  Lemma link_lt s fs a b f : link s fs a b f -> a < gsize s /\ b < gsize s.
  Proof. intros (_ & _ & va & vb & Ha & Hb & _). split; eapply var_at_lt; eauto. Qed.
  Lemma link_sym s fs a b f : link s fs a b f -> link s fs b a f.
  Proof. intros (N1 & I & va & vb & Ha & Hb & E). split; auto. split; auto. exists vb, va. splits; auto. tauto. Qed.

  (** an active connection is an active edge below the size *)
  Lemma core_aedge s fs x y : core s fs -> (aedge s x y <-> eact s x y).
  Proof.
    intros C. unfold aedge, eact. split. intros [_ E]; auto. intros [c E]. split; eauto.
    eapply link_lt. eapply co_act; eauto.
  Qed.

  Lemma ev_lt s fs a k : core s fs -> g_ev s a = Some k -> a < gsize s.
  Proof. intros C E. destruct (co_ev _ _ C _ _ E) as (v & Hv & _). eapply var_at_lt; eauto. Qed.

  (** {1 Lookup} *)
  Lemma find_node_spec s v a : NoDup (map vkey (g_vars s)) ->
    (find_node s v = Some a <-> exists w, var_at s a w /\ vkey w = vkey v).
  Proof.
    intros ND. unfold find_node. split.
    - intros E. apply find_pos_some in E as (w & Hw & E & _). apply var_veqb_key in E. eauto.
    - intros (w & Hw & E). destruct (find_pos (var_veqb v) (g_vars s)) as [b|] eqn:F.
      + apply find_pos_some in F as (u & Hu & Ev & _). apply var_veqb_key in Ev.
        f_equal. eapply (var_at_inj s b a u w ND); eauto. congruence.
      + exfalso. assert (Q : var_veqb v w = true) by (apply var_veqb_key; auto).
        pose proof (proj1 (find_pos_none _ _) F w (nth_error_In _ _ Hw)) as Q'. congruence.
  Qed.
  Lemma find_node_none s v : find_node s v = None <-> ~ In (vkey v) (map vkey (g_vars s)).
  Proof.
    unfold find_node. rewrite find_pos_none. split.
    - intros F I. apply in_map_iff in I as (w & E & I). specialize (F w I).
      assert (Q : var_veqb v w = true) by (apply var_veqb_key; auto). congruence.
    - intros F w I. destruct (var_veqb v w) eqn:E; auto. exfalso. apply F. apply var_veqb_key in E. rewrite E.
      apply in_map; auto.
  Qed.

  Definition loc_ok s a (l : loc) : Prop :=
    match l with
    | LEv k => g_ev s a = Some k
    | LCl i => g_ev s a = None /\ exists cl, nth_error (g_cl s) i = Some cl /\ In a (cl_nodes cl)
    end.

  Lemma clus_has s a : clus s -> a < gsize s -> g_ev s a = None ->
    exists i cl, nth_error (g_cl s) i = Some cl /\ In a (cl_nodes cl).
  Proof.
    intros CS L E. assert (I : In a (hid s)) by (apply hid_In; auto).
    rewrite <- (cp_perm _ _ _ (cs_comp _ CS)) in I. apply in_concat in I as (c & Hc & Ha).
    apply in_map_iff in Hc as (cl & <- & Hcl). apply In_nth_error in Hcl as [i Hi]. eauto.
  Qed.
  Lemma clus_hidden s cl a : clus s -> In cl (g_cl s) -> In a (cl_nodes cl) -> a < gsize s /\ g_ev s a = None.
  Proof.
    intros CS Hc Ha. apply hid_In. rewrite <- (cp_perm _ _ _ (cs_comp _ CS)). apply in_concat.
    exists (cl_nodes cl). split; auto. apply in_map; auto.
  Qed.
  Lemma clus_nodup s : clus s -> NoDup (concat (map cl_nodes (g_cl s))).
  Proof. intros CS. eapply perm_NoDup. apply (cp_perm _ _ _ (cs_comp _ CS)). apply hid_NoDup. Qed.
  Lemma clus_index s i j ci cj a : clus s -> nth_error (g_cl s) i = Some ci -> nth_error (g_cl s) j = Some cj ->
    In a (cl_nodes ci) -> In a (cl_nodes cj) -> i = j.
  Proof.
    intros CS Hi Hj Hai Haj. eapply (nodup_concat_index (map cl_nodes (g_cl s))).
    apply clus_nodup; auto. rewrite nth_error_map, Hi; reflexivity. rewrite nth_error_map, Hj; reflexivity. all: eauto.
  Qed.

  Lemma locate_find s v : (locate s v = None <-> find_node s v = None).
  Proof.
    unfold locate. destruct (find_node s v) as [a|]; [|tauto].
    destruct (g_ev s a); [split; discriminate|]. destruct (find_pos _ _); split; discriminate.
  Qed.
  Lemma locate_ok s fs v a l : core s fs -> clus s -> locate s v = Some (a, l) ->
    find_node s v = Some a /\ loc_ok s a l.
  Proof.
    intros C CS. unfold locate. destruct (find_node s v) as [b|] eqn:F; [|discriminate].
    destruct (g_ev s b) as [k|] eqn:E. { intros [= <- <-]. simpl. auto. }
    apply find_node_spec in F as (w & Hw & _); [|apply C].
    destruct (find_pos (fun cl => mem b (cl_nodes cl)) (g_cl s)) as [i|] eqn:P.
    - intros [= <- <-]. apply find_pos_some in P as (cl & Hc & Hm & _). apply mem_In in Hm. simpl. eauto.
    - exfalso. destruct (clus_has s b CS (var_at_lt _ _ _ Hw) E) as (i & cl & Hi & Hb).
      pose proof (proj1 (find_pos_none _ _) P cl (nth_error_In _ _ Hi)) as Q. apply mem_false in Q. auto.
  Qed.
  Lemma locate_exists s a w : NoDup (map vkey (g_vars s)) -> var_at s a w -> exists l, locate s w = Some (a, l).
  Proof.
    intros ND Hw. unfold locate. rewrite (proj2 (find_node_spec s w a ND)) by eauto.
    destruct (g_ev s a); eauto. destruct (find_pos _ _); eauto.
  Qed.

  (** {1 Change of parts of the state} *)

  Lemma merge_of_ext e s s' a : nd_un (g_node s' a) = nd_un (g_node s a) -> (forall b, dis s' a b = dis s a b) ->
    keys (gsize s') (nd_dis (g_node s' a)) = keys (gsize s) (nd_dis (g_node s a)) ->
    nth_error (g_vars s') a = nth_error (g_vars s) a ->
    merge_of e s' a = merge_of e s a.
  Proof.
    intros E1 E2 E3 E4. unfold merge_of, gather_unaries, node_var, vget. rewrite E1, E3, E4.
    rewrite (map_ext (fun b => match dis s' a b with Some c => c_msg c | None => None end)
                     (fun b => match dis s a b with Some c => c_msg c | None => None end)).
    reflexivity. intros b. rewrite E2. reflexivity.
  Qed.
  Lemma merged_for_ext s s' a m : nd_un (g_node s' a) = nd_un (g_node s a) -> (forall b, dis s' a b = dis s a b) ->
    keys (gsize s') (nd_dis (g_node s' a)) = keys (gsize s) (nd_dis (g_node s a)) ->
    nth_error (g_vars s') a = nth_error (g_vars s) a ->
    merged_for s a m -> merged_for s' a m.
  Proof. intros E1 E2 E3 E4 (e & He & Em). exists e. split; auto. rewrite (merge_of_ext e s); auto. Qed.

  Lemma keys_ext {A} n (m m' : nat -> option A) : (forall k, k < n -> is_some (m' k) = is_some (m k)) -> keys n m' = keys n m.
  Proof. intros E. unfold keys. apply filter_ext_in. intros k Hk. apply in_seq in Hk. apply E. lia. Qed.

  Lemma dis_keys_eq s s' a : gsize s' = gsize s -> (forall b, dis s' a b = dis s a b) ->
    keys (gsize s') (nd_dis (g_node s' a)) = keys (gsize s) (nd_dis (g_node s a)).
  Proof. intros E1 E2. rewrite E1. apply keys_ext. intros k _. unfold dis in E2. rewrite E2. reflexivity. Qed.

  (** the state as seen by the structural invariants *)
  Lemma topo_ok_ext s s' nodes ts :
    (forall x y, In x nodes \/ In y nodes -> option_map c_uid (act s' x y) = option_map c_uid (act s x y)) ->
    topo_ok s nodes ts -> topo_ok s' nodes ts.
  Proof.
    intros E [T1 T2 T3].
    assert (EX : forall x y u, In x nodes \/ In y nodes ->
      ((exists c, act s' x y = Some c /\ c_uid c = u) <-> (exists c, act s x y = Some c /\ c_uid c = u))).
    { intros x y u I. specialize (E x y I). destruct (act s' x y), (act s x y); simpl in E; try discriminate.
      - injection E as E. split; intros (? & [= <-] & <-); eauto.
      - split; intros (? & ? & _); discriminate. }
    assert (EA : forall x y, In x nodes -> (eact s' x y <-> eact s x y)).
    { intros x y I. specialize (E x y (or_introl I)). unfold eact.
      destruct (act s' x y), (act s x y); simpl in E; try discriminate; split; intros []; eauto; discriminate. }
    constructor; auto.
    - intros a b. rewrite T2. split; intros [I J]; split; auto; apply EA; auto.
    - intros t Ht. destruct (T3 t Ht) as (A & B & C).
      assert (I : In (t_snd t) nodes).
      { apply (T2 (t_snd t) (t_rcv t)). apply in_map_iff. exists t. auto. }
      split; [|split]; auto.
      + apply EX; auto.
      + intros k u. rewrite C. split; intros [Q1 Q2]; split; auto; apply EX in Q2; auto.
  Qed.

  (** {1 New node} *)
  Definition new_node s v : gst :=
    mkG (g_vars s ++ [v]) (fupd (g_node s) (gsize s) empty_node) (g_next s)
        (g_cl s ++ [mkCl [gsize s] None]) (g_ev s) (g_all s) (g_last s) (g_iters s) (g_pool s).

  Lemma core_fresh s fs a b : core s fs -> gsize s <= a \/ gsize s <= b -> act s a b = None /\ dis s a b = None.
  Proof.
    intros C L. split.
    - destruct (act s a b) eqn:E; auto. exfalso. apply (co_act _ _ C) in E. apply link_lt in E. lia.
    - destruct (dis s a b) eqn:E; auto. exfalso. apply (co_dis _ _ C) in E. apply link_lt in E. lia.
  Qed.
  Lemma core_fresh_un s fs a : core s fs -> gsize s <= a -> nd_un (g_node s a) = [].
  Proof.
    intros C L. destruct (nd_un (g_node s a)) as [|f l] eqn:E; auto. exfalso.
    destruct (co_un _ _ C a f) as (_ & v & Hv & _). rewrite E; simpl; auto. apply var_at_lt in Hv. lia.
  Qed.

  Lemma new_node_act s fs v x y : core s fs -> act (new_node s v) x y = act s x y.
  Proof.
    intros C. unfold act, new_node, fupd. simpl. destruct (Nat.eqb_spec x (gsize s)); auto. subst. simpl.
    destruct (core_fresh s fs (gsize s) y C) as [E _]; auto.
  Qed.
  Lemma new_node_dis s fs v x y : core s fs -> dis (new_node s v) x y = dis s x y.
  Proof.
    intros C. unfold dis, new_node, fupd. simpl. destruct (Nat.eqb_spec x (gsize s)); auto. subst. simpl.
    destruct (core_fresh s fs (gsize s) y C) as [_ E]; auto.
  Qed.
  Lemma new_node_un s fs v x : core s fs -> nd_un (g_node (new_node s v) x) = nd_un (g_node s x).
  Proof.
    intros C. unfold new_node, fupd. simpl. destruct (Nat.eqb_spec x (gsize s)); auto. subst. simpl.
    symmetry. eapply core_fresh_un; eauto.
  Qed.
  Lemma new_node_var_at s v a w : var_at (new_node s v) a w <-> var_at s a w \/ (a = gsize s /\ w = v).
  Proof. unfold var_at, new_node, gsize. simpl. apply nth_error_snoc. Qed.

  Lemma NoDup_snoc {A} (l : list A) x : NoDup l -> ~ In x l -> NoDup (l ++ [x]).
  Proof.
    intros ND NI. eapply perm_NoDup. 2:{ constructor; [exact NI|exact ND]. }
    rewrite Permutation_app_comm. reflexivity.
  Qed.

  Lemma new_node_inv s fs v : core s fs -> clus s -> made v -> ~ In (vkey v) (map vkey (g_vars s)) ->
    core (new_node s v) fs /\ clus (new_node s v).
  Proof.
    intros C CS Hm Hv.
    assert (VA : forall a w, var_at s a w -> var_at (new_node s v) a w) by (intros; apply new_node_var_at; auto).
    assert (LK : forall a b f, link s fs a b f -> link (new_node s v) fs a b f).
    { intros a b f (N1 & I & va & vb & Ha & Hb & E). split; auto. split; auto. exists va, vb. auto. }
    assert (EA := fun x y => new_node_act s fs v x y C). assert (ED := fun x y => new_node_dis s fs v x y C).
    assert (EU := fun x => new_node_un s fs v x C).
    split.
    - constructor; try (apply C).
      + simpl. rewrite map_app. simpl. apply NoDup_snoc; auto. apply C.
      + simpl. apply Forall_app. split; auto. apply C.
      + simpl. intros a k E. destruct (co_ev _ _ C a k E) as (w & Hw & L). eauto.
      + intros a b c. rewrite EA. intros E. apply LK. eapply co_act; eauto.
      + intros a b c. rewrite !EA. apply C.
      + intros a b c. rewrite ED. intros E. apply LK. eapply co_dis; eauto.
      + intros a b c. rewrite !ED. apply C.
      + intros a b c d. rewrite EA, ED. apply C.
      + simpl. intros a b. rewrite ED. apply C.
      + simpl. intros a b. rewrite EA. apply C.
      + intros a f. rewrite EU. intros I. destruct (co_un _ _ C a f I) as (I' & w & Hw & E). eauto.
      + intros a. rewrite EU. apply C.
      + intros f I. destruct (co_fac _ _ C f I) as [(w & a & E & Hw & Hi)|(va & vb & a & b & c & E & Ha & Hb & Hc & Ef)].
        * left. exists w, a. rewrite EU. auto.
        * right. exists va, vb, a, b, c. rewrite EA, ED. auto.
      + simpl. intros a b c k w Ea Eb. rewrite ED. intros Ec Hw.
        destruct (co_ev _ _ C b k Eb) as (w' & Hw' & _).
        assert (w' = w) by (apply (var_at_fun (new_node s v) b); auto). subst. eapply (co_msg _ _ C); eauto.
      + simpl. unfold fupd. intros a m E. destruct (Nat.eqb_spec a (gsize s)); simpl; [discriminate|]. intros Em.
        assert (Hun : nd_un (g_node (new_node s v) a) = nd_un (g_node s a)) by apply EU.
        destruct (Nat.lt_ge_cases a (gsize s)) as [L|L].
        * eapply merged_for_ext; [exact Hun|intros; apply ED| | |eapply co_merged; eauto].
          -- assert (En : g_node (new_node s v) a = g_node s a).
             { simpl. unfold fupd. rewrite (proj2 (Nat.eqb_neq _ _) n). reflexivity. }
             rewrite En. unfold keys, gsize, new_node. simpl. rewrite app_length, seq_app, filter_app. simpl.
             destruct (core_fresh s fs a (gsize s) C) as [_ D]; auto. unfold gsize in D. unfold dis in D. rewrite D. simpl.
             rewrite app_nil_r. reflexivity.
          -- simpl. apply nth_error_app1; auto.
        * exfalso. destruct (co_merged _ _ C a m E Em) as (e & He & Q). unfold merge_of, gather_unaries in Q.
          rewrite (core_fresh_un s fs a C L) in Q. simpl in Q.
          assert (K : keys (gsize s) (nd_dis (g_node s a)) = []).
          { apply incl_l_nil. intros k Hk. apply keys_In in Hk as (_ & d & Hd).
            destruct (core_fresh s fs a k C) as [_ D]; auto. unfold dis in D. congruence. }
          rewrite K in Q. pose proof (proj1 He a []) as P. symmetry in P. apply Permutation_nil in P. rewrite P in Q.
          simpl in Q. unfold node_var, vget in Q. rewrite (proj2 (nth_error_None (g_vars s) a)) in Q by exact L. discriminate.
    - assert (NE : g_ev s (gsize s) = None).
      { destruct (g_ev s (gsize s)) eqn:E; auto. exfalso. pose proof (ev_lt s fs _ _ C E). lia. }
      constructor.
      + simpl. rewrite map_app. simpl.
        assert (EH : hid (new_node s v) = hid s ++ [gsize s]).
        { unfold hid, new_node, gsize. simpl. rewrite app_length, seq_app, filter_app. simpl.
          unfold gsize in NE. rewrite NE. reflexivity. }
        rewrite EH. destruct (cs_comp _ CS) as [P1 P2 P3 P4]. constructor.
        * rewrite concat_app. simpl. apply Permutation_app; auto.
        * intros c. rewrite in_app_iff. intros [I|[<-|[]]]; auto. discriminate.
        * intros c x y. rewrite in_app_iff. unfold eact. setoid_rewrite EA. intros [I|[<-|[]]] Hx [d Hd] Hy.
          -- apply in_app_iff in Hy as [Hy|[<-|[]]].
             ++ eapply P3; eauto. exists d; auto.
             ++ exfalso. destruct (core_fresh s fs x (gsize s) C); auto. congruence.
          -- destruct Hx as [<-|[]]. exfalso. destruct (core_fresh s fs (gsize s) y C); auto. congruence.
        * intros c x y. rewrite in_app_iff. intros [I|[<-|[]]] Hx Hy.
          -- eapply linked_mono; [| |eapply P4; eauto].
             ++ intros u w _ _ [d Hd]. exists d. rewrite EA. auto.
             ++ intros u Hu. apply in_app_iff. auto.
          -- destruct Hx as [<-|[]], Hy as [<-|[]]. apply rt_refl.
      + simpl. intros cl ts. rewrite in_app_iff. intros [I|[<-|[]]] E.
        * eapply topo_ok_ext; [|eapply cs_topo; eauto]. intros x y _. rewrite EA. reflexivity.
        * discriminate.
  Qed.

  (** {1 Insertion} *)
  Lemma vset_add_new l v : ~ In (vkey v) (map vkey l) -> vset_add l v = l ++ [v].
  Proof. intros NI. unfold vset_add. rewrite (proj2 (vset_mem_false l v) NI). reflexivity. Qed.
  Lemma vset_add_old l v : In (vkey v) (map vkey l) -> vset_add l v = l.
  Proof. intros I. unfold vset_add. rewrite (proj2 (vset_mem_spec l v) I). reflexivity. Qed.

  (** what the creation of nodes changes *)
  Record grow s s' : Prop := {
    gr_ev : g_ev s' = g_ev s;
    gr_all : g_all s' = g_all s;
    gr_last : g_last s' = g_last s;
    gr_act : forall x y, act s' x y = act s x y;
    gr_dis : forall x y, dis s' x y = dis s x y;
    gr_un : forall x, nd_un (g_node s' x) = nd_un (g_node s x);
    gr_at : forall a w, var_at s a w -> var_at s' a w;
    gr_loc : forall a l, loc_ok s a l -> loc_ok s' a l
  }.
  Lemma grow_refl s : grow s s.
  Proof. constructor; auto. Qed.
  Lemma grow_trans s1 s2 s3 : grow s1 s2 -> grow s2 s3 -> grow s1 s3.
  Proof. intros [] []. constructor; try congruence; auto. Qed.

  Definition conflict s v : Prop := exists w, In w (g_vars s) /\ vkey w = vkey v /\ w <> v.

  Lemma conflict_not s fs a v : core s fs -> var_at s a v -> ~ conflict s v.
  Proof.
    intros C Hv (w & Hw & E & Hne). apply In_nth_error in Hw as [b Hb].
    destruct (var_at_inj s b a w v) as [_ ->]; auto. apply C.
  Qed.

  Lemma grow_clean s s' : grow s s' -> clean s -> clean s'.
  Proof. intros G CL x y [c E]. rewrite (gr_act _ _ G) in E. rewrite (gr_ev _ _ G). apply CL. exists c; auto. Qed.

  Lemma find_or_make_ok s fs v : core s fs -> clus s -> made v ->
    (conflict s v /\ find_or_make s v = Thr s) \/
    (~ conflict s v /\ exists a l s', find_or_make s v = Ret (a, l) s' /\ core s' fs /\ clus s' /\ loc_ok s' a l /\ var_at s' a v /\
       g_vars s' = vset_add (g_vars s) v /\ grow s s').
  Proof.
    intros C CS Hm. unfold find_or_make. destruct (locate s v) as [[a l]|] eqn:E.
    - destruct (locate_ok s fs v a l C CS E) as [F L]. apply find_node_spec in F as (w & Hw & Ek); [|apply C].
      assert (EN : node_var s a = Ok w) by (unfold node_var, vget; rewrite Hw; auto). rewrite EN. simpl.
      destruct (var_peqb v w) eqn:P.
      + apply var_peqb_eq in P. subst w. right. split. eapply conflict_not; eauto.
        exists a, l, s. splits; auto; try apply grow_refl.
        rewrite vset_add_old; auto. apply in_map. eapply nth_error_In; eauto.
      + left. split; auto. exists w. splits; auto. eapply nth_error_In; eauto. intros ->.
        rewrite (proj2 (var_peqb_eq v v) eq_refl) in P. discriminate.
    - apply locate_find, find_node_none in E. right. split.
      { intros (w & Hw & Ek & _). apply E. rewrite <- Ek. apply in_map; auto. }
      exists (gsize s), (LCl (length (g_cl s))), (new_node s v).
      destruct (new_node_inv s fs v C CS Hm E) as [C' CS']. splits; auto.
      + assert (NE : g_ev s (gsize s) = None).
        { destruct (g_ev s (gsize s)) eqn:Q; auto. exfalso. pose proof (ev_lt s fs _ _ C Q). lia. }
        simpl. split; auto. exists (mkCl [gsize s] None). rewrite nth_error_app2, Nat.sub_diag by lia. simpl. auto.
      + apply new_node_var_at. auto.
      + rewrite vset_add_new; auto.
      + constructor; auto.
        * intros; eapply new_node_act; eauto.
        * intros; eapply new_node_dis; eauto.
        * intros; eapply new_node_un; eauto.
        * intros. apply new_node_var_at. auto.
        * intros b [i|k]; simpl; auto. intros (Eb & cl & Hi & Hb). split; auto. exists cl. split; auto.
          rewrite nth_error_app1; auto. eapply nth_error_lt; eauto.
  Qed.

  Lemma link_mono s s' fs fs' a b f : (forall a w, var_at s a w -> var_at s' a w) -> incl fs fs' ->
    link s fs a b f -> link s' fs' a b f.
  Proof. intros V I (N1 & J & va & vb & Ha & Hb & E). split; auto. split; auto. exists va, vb. auto. Qed.

  Definition put_unary s a f : gst :=
    drop_merged (set_node s a (with_un (g_node s a) (nd_un (g_node s a) ++ [f]))) a.

  Lemma put_unary_un s a f x : nd_un (g_node (put_unary s a f) x) = if x =? a then nd_un (g_node s a) ++ [f] else nd_un (g_node s x).
  Proof. unfold put_unary, drop_merged. simpl. unfold fupd. bust. Qed.
  Lemma put_unary_act s a f x y : act (put_unary s a f) x y = act s x y.
  Proof. unfold put_unary, drop_merged, act. simpl. unfold fupd. bust. Qed.
  Lemma put_unary_dis s a f x y : dis (put_unary s a f) x y = dis s x y.
  Proof. unfold put_unary, drop_merged, dis. simpl. unfold fupd. bust. Qed.

  Lemma clus_ext s s' : g_cl s' = g_cl s -> hid s' = hid s ->
    (forall x y, option_map c_uid (act s' x y) = option_map c_uid (act s x y)) -> clus s -> clus s'.
  Proof.
    intros E1 E2 E3 [C1 C2]. constructor.
    - rewrite E1, E2. eapply components_ext; [|exact C1]. intros x y _ _. unfold eact. specialize (E3 x y).
      destruct (act s' x y), (act s x y); simpl in E3; try discriminate; split; intros []; eauto; discriminate.
    - rewrite E1. intros cl ts Hc Ht. eapply topo_ok_ext; eauto.
  Qed.
  Lemma hid_ext s s' : g_ev s' = g_ev s -> gsize s' = gsize s -> hid s' = hid s.
  Proof. intros E1 E2. unfold hid. rewrite E1, E2. reflexivity. Qed.

  Lemma put_unary_inv s fs a v f : core s fs -> clus s -> var_at s a v -> fvars H f = [v] -> ~ In f fs ->
    core (put_unary s a f) (fs ++ [f]) /\ clus (put_unary s a f).
  Proof.
    intros C CS Hv Ef NI.
    assert (I1 : incl fs (fs ++ [f])) by (intros x Hx; apply in_app_iff; auto).
    split.
    - constructor; try (apply C).
      + intros x y c. rewrite put_unary_act. intros E. apply (link_mono s _ fs); auto. eapply co_act; eauto.
      + intros x y c. rewrite !put_unary_act. apply C.
      + intros x y c. rewrite put_unary_dis. intros E. apply (link_mono s _ fs); auto. eapply co_dis; eauto.
      + intros x y c. rewrite !put_unary_dis. apply C.
      + intros x y c d. rewrite put_unary_act, put_unary_dis. apply C.
      + simpl. intros x y. rewrite put_unary_dis. apply C.
      + simpl. intros x y. rewrite put_unary_act. apply C.
      + intros x g. rewrite put_unary_un. destruct (Nat.eqb_spec x a).
        * subst. rewrite in_app_iff. intros [I|[<-|[]]].
          -- destruct (co_un _ _ C a g I) as (J & w & Hw & E). split; auto. exists w. auto.
          -- split. apply in_app_iff; simpl; auto. exists v. auto.
        * intros I. destruct (co_un _ _ C x g I) as (J & w & Hw & E). split; auto. exists w. auto.
      + intros x. rewrite put_unary_un. destruct (Nat.eqb_spec x a); [|apply C]. apply NoDup_snoc. apply C.
        intros I. apply NI. apply (co_un _ _ C a f I).
      + apply NoDup_snoc; auto. apply C.
      + intros g. rewrite in_app_iff. intros [I|[<-|[]]].
        * destruct (co_fac _ _ C g I) as [(w & x & E & Hw & Hi)|(va & vb & x & y & c & E & Ha & Hb & Hc & Eg)].
          -- left. exists w, x. rewrite put_unary_un. splits; auto. destruct (Nat.eqb_spec x a); auto. subst.
             apply in_app_iff; auto.
          -- right. exists va, vb, x, y, c. rewrite put_unary_act, put_unary_dis. auto.
        * left. exists v, a. rewrite put_unary_un, Nat.eqb_refl. splits; auto. apply in_app_iff; simpl; auto.
      + simpl. intros x y c k w Ex Ey. rewrite put_unary_dis. intros Ec Hw. eapply (co_msg _ _ C); eauto.
      + intros x m E Em. unfold put_unary in Em. rewrite drop_merged_merged in Em.
        destruct (Nat.eqb_spec x a); [discriminate|]. simpl in Em. unfold fupd in Em.
        rewrite (proj2 (Nat.eqb_neq x a) n) in Em.
        eapply merged_for_ext; [| | | |eapply (co_merged _ _ C); eauto].
        * rewrite put_unary_un, (proj2 (Nat.eqb_neq x a) n). auto.
        * intros; apply put_unary_dis.
        * apply dis_keys_eq; auto. intros; apply put_unary_dis.
        * reflexivity.
    - eapply clus_ext; [| | |exact CS]; auto. intros. rewrite put_unary_act. auto.
  Qed.

  Lemma factor_made f : Forall made (fvars H f).
  Proof. apply (HG f). Qed.

  Lemma add_unary_ok s fs f v : core s fs -> clus s -> fvars H f = [v] -> ~ In f fs ->
    (conflict s v /\ add_unary H s f = Thr s) \/
    (~ conflict s v /\ exists s', add_unary H s f = Ret tt s' /\ core s' (fs ++ [f]) /\ clus s' /\
       g_vars s' = vset_add (g_vars s) v /\ g_ev s' = g_ev s /\ g_all s' = g_all s /\ g_last s' = g_last s /\
       (clean s -> clean s')).
  Proof.
    intros C CS Ef NI. unfold add_unary. rewrite Ef. simpl.
    assert (Hm : made v) by (pose proof (factor_made f) as F; rewrite Ef in F; inversion F; auto).
    destruct (find_or_make_ok s fs v C CS Hm) as [[Q ->]|(Q & a & l & s' & -> & C' & CS' & L & Hv & Ev & G)]; auto.
    right. split; auto. simpl. eexists. split; [reflexivity|].
    change (drop_merged _ a) with (put_unary s' a f).
    destruct (put_unary_inv s' fs a v f C' CS' Hv Ef NI) as [C2 CS2]. splits; auto; simpl; try apply G.
    intros CL x y [c E]. rewrite put_unary_act, (gr_act _ _ G) in E.
    change (g_ev (put_unary s' a f)) with (g_ev s'). rewrite (gr_ev _ _ G). apply CL. exists c; auto.
  Qed.

  (** {1 Insertion of a binary factor} *)
  Lemma components_add_edge (A B : nat -> nat -> Prop) a b dom res c :
    (forall x y, B x y <-> A x y \/ (x = a /\ y = b) \/ (x = b /\ y = a)) ->
    components A dom res -> In c res -> In a c -> In b c -> components B dom res.
  Proof.
    intros E C Hc Ha Hb.
    destruct C as [P1 P2 P3 P4]. constructor; auto.
    - intros c' x y Hc' Hx HB Hy. apply E in HB as [HA|[[-> ->]|[-> ->]]]; eauto.
      + (* a in c' *)
        assert (L : linked A (fun z => In z dom) a b) by (apply (P4 c); auto).
        eapply (linked_closed A (fun z => In z dom) (fun z => In z c')); eauto.
      + assert (L : linked A (fun z => In z dom) b a) by (apply (P4 c); auto).
        eapply (linked_closed A (fun z => In z dom) (fun z => In z c')); eauto.
    - intros c' x y Hc' Hx Hy. eapply linked_mono; [| |eapply P4; eauto]; auto. intros u v _ _ HA. apply E. auto.
  Qed.

  Lemma components_merge (A B : nat -> nat -> Prop) a b dom ca cb rest :
    (forall x y, B x y <-> A x y \/ (x = a /\ y = b) \/ (x = b /\ y = a)) -> NoDup dom ->
    components A dom (ca :: cb :: rest) -> In a ca -> In b cb -> components B dom ((ca ++ cb) :: rest).
  Proof.
    intros E ND [P1 P2 P3 P4] Ha Hb.
    assert (NDc : NoDup (concat (ca :: cb :: rest))) by (eapply perm_NoDup; [exact P1|auto]).
    assert (D : forall c, In c rest -> ~ In a c /\ ~ In b c).
    { intros c Hc. simpl in NDc. split; intros I.
      - eapply (NoDup_app_disj _ _ NDc a); auto. apply in_app_iff. right. apply in_concat. eauto.
      - apply NoDup_app_parts in NDc as [_ NDc]. eapply (NoDup_app_disj _ _ NDc b); auto. apply in_concat. eauto. }
    assert (da : In a dom) by (rewrite <- P1; simpl; apply in_app_iff; auto).
    assert (db : In b dom) by (rewrite <- P1; simpl; rewrite !in_app_iff; auto).
    assert (LM : forall x y, linked A (fun z => In z dom) x y -> linked B (fun z => In z dom) x y).
    { intros x y. apply linked_mono; auto. intros u v _ _ HA. apply E. auto. }
    constructor.
    - rewrite <- P1. simpl. rewrite app_assoc. reflexivity.
    - intros c [<-|I]. 2:{ apply P2. simpl; auto. } intros Q. apply app_eq_nil in Q as [Q _]. subst. destruct Ha.
    - intros c x y [<-|I] Hx HB Hy.
      + apply in_app_iff. apply E in HB as [HA|[[-> ->]|[-> ->]]]; auto.
        apply in_app_iff in Hx as [Hx|Hx]; [left|right]; eapply P3; eauto; simpl; auto.
      + apply E in HB as [HA|[[-> ->]|[-> ->]]]. eapply P3; eauto; simpl; auto. all: apply D in I; tauto.
    - intros c x y [<-|I] Hx Hy. 2:{ apply LM. apply (P4 c); simpl; auto. }
      apply in_app_iff in Hx, Hy.
      assert (AB : linked B (fun z => In z dom) a b) by (apply rt_step; splits; auto; apply E; auto).
      assert (BA : linked B (fun z => In z dom) b a) by (apply rt_step; splits; auto; apply E; auto).
      destruct Hx as [Hx|Hx], Hy as [Hy|Hy].
      + apply LM. apply (P4 ca); simpl; auto.
      + eapply rt_trans. apply LM, (P4 ca x a); simpl; auto. eapply rt_trans. exact AB. apply LM, (P4 cb b y); simpl; auto.
      + eapply rt_trans. apply LM, (P4 cb x b); simpl; auto. eapply rt_trans. exact BA. apply LM, (P4 ca a y); simpl; auto.
      + apply LM. apply (P4 cb); simpl; auto.
  Qed.

  Lemma merge_lists_perm {A} (l : list A) i j xi xj x : i <> j -> nth_error l i = Some xi -> nth_error l j = Some xj ->
    exists rest, Permutation l (xi :: xj :: rest) /\ Permutation (without [j] (lset l i x)) (x :: rest).
  Proof.
    intros Hij Hi Hj. pose proof (nth_error_lt _ _ _ Hi) as Li. pose proof (nth_error_lt _ _ _ Hj) as Lj.
    assert (P1 : Permutation l (without [i] l ++ [xi])).
    { rewrite (without_perm [i] l x) at 1; [| |]. simpl. rewrite (nth_error_nth l i x Hi). reflexivity.
      repeat constructor; auto. intros k [<-|[]]; auto. }
    assert (I : In xj (without [i] l)).
    { rewrite (without_map [i] l x). apply in_map_iff. exists j. split. apply nth_error_nth; auto.
      apply filter_In. split. apply in_seq. lia. simpl. destruct (Nat.eqb_spec j i); auto; congruence. }
    apply in_split in I as (l1 & l2 & E). exists (l1 ++ l2).
    assert (P2 : Permutation (without [i] l) (xj :: l1 ++ l2)) by (rewrite E; symmetry; apply Permutation_middle).
    split.
    - rewrite P1, P2. rewrite Permutation_app_comm. reflexivity.
    - assert (P3 : Permutation (lset l i x) (without [j] (lset l i x) ++ [xj])).
      { rewrite (without_perm [j] (lset l i x) x) at 1; [| |]. simpl.
        assert (Q : nth_error (lset l i x) j = Some xj) by (rewrite nth_error_lset_ne; auto).
        rewrite (nth_error_nth _ j x Q). reflexivity.
        repeat constructor; auto. rewrite length_lset. intros k [<-|[]]; auto. }
      pose proof (lset_perm l i x x Li) as P4. rewrite P3, P2 in P4. simpl in P4.
      rewrite Permutation_app_comm in P4. simpl in P4. apply Permutation_cons_inv in P4.
      rewrite P4. rewrite Permutation_app_comm. reflexivity.
  Qed.

  Lemma map_lset {A B} (g : A -> B) l i x : map g (lset l i x) = lset (map g l) i (g x).
  Proof. revert i; induction l as [|y l IH]; intros [|i]; simpl; auto. rewrite IH. reflexivity. Qed.
  Lemma lset_same {A} (l : list A) i x : nth_error l i = Some x -> lset l i x = l.
  Proof. revert i; induction l as [|y l IH]; intros [|i]; simpl; intros E; try discriminate; auto. congruence. rewrite IH; auto. Qed.
  Lemma map_without {A B} (g : A -> B) ps l : map g (without ps l) = without ps (map g l).
  Proof.
    unfold without. rewrite map_map, map_length. generalize 0. induction l as [|x l IH]; intros n; simpl; auto.
    destruct (negb (mem n ps)); simpl; rewrite IH; reflexivity.
  Qed.
  Lemma In_lset {A} (l : list A) i x y : In y (lset l i x) -> y = x \/ In y l.
  Proof.
    revert i; induction l as [|z l IH]; intros [|i]; simpl; auto.
    - intros [->|I]; auto.
    - intros [->|I]; auto. apply IH in I. tauto.
  Qed.
  Lemma In_without {A} ps (l : list A) y : In y (without ps l) -> In y l.
  Proof.
    unfold without. intros I. apply in_map_iff in I as ([k z] & <- & I). apply filter_In in I as [I _].
    apply in_combine_r in I. auto.
  Qed.

  (** [f] is not yet used; [a] and [b] are not connected *)
  Definition unlinked s a b : Prop := act s a b = None /\ dis s a b = None.
  Lemma unlinked_sym s fs a b : core s fs -> unlinked s a b -> unlinked s b a.
  Proof.
    intros C [E1 E2]. split.
    - destruct (act s b a) eqn:E; auto. apply (co_act_sym _ _ C) in E as (? & ? & _). congruence.
    - destruct (dis s b a) eqn:E; auto. apply (co_dis_sym _ _ C) in E as (? & ? & _). congruence.
  Qed.

  Lemma activate_core s fs a b va vb f : core s fs -> a <> b -> var_at s a va -> var_at s b vb ->
    fvars H f = [va; vb] -> ~ In f fs -> unlinked s a b -> g_ev s a = None -> g_ev s b = None ->
    core (activate s a b f) (fs ++ [f]).
  Proof.
    intros C Hab Ha Hb Ef NI U Ea Eb. pose proof (unlinked_sym s fs a b C U) as U'.
    destruct (activate_frame s a b f) as [(F1 & F2 & F3 & F4 & F5 & F6 & F7 & F8) FM]. set (s' := activate s a b f) in *.
    assert (VA : forall x w, var_at s' x w <-> var_at s x w) by (intros; unfold var_at; rewrite F1; tauto).
    assert (I1 : incl fs (fs ++ [f])) by (intros x Hx; apply in_app_iff; auto).
    assert (ED : forall x y, dis s' x y = dis s x y).
    { intros x y. unfold s'. rewrite activate_dis by auto. destruct (pair_is x y a b) eqn:P; auto.
      apply pair_is_true in P as [[-> ->]|[-> ->]]; [destruct U|destruct U']; auto. }
    assert (EA := fun x y => activate_act s a b f x y Hab). fold s' in EA.
    assert (LK : forall x y g, link s fs x y g -> link s' (fs ++ [f]) x y g).
    { intros x y g. apply link_mono; [intros; apply VA; auto|auto]. }
    assert (LN : link s' (fs ++ [f]) a b f).
    { split; auto. split. apply in_app_iff; simpl; auto. exists va, vb. rewrite !VA. auto. }
    constructor.
    - rewrite F1. apply C.
    - rewrite F1. apply C.
    - rewrite F3. intros x k E. destruct (co_ev _ _ C x k E) as (w & Hw & L). exists w. rewrite VA. auto.
    - intros x y c. rewrite EA. destruct (pair_is x y a b) eqn:P.
      + intros [= <-]. simpl. apply pair_is_true in P as [[-> ->]|[-> ->]]; auto. apply link_sym; auto.
      + intros E. apply LK. eapply co_act; eauto.
    - intros x y c. rewrite !EA, (pair_is_sym y x). destruct (pair_is x y a b) eqn:P.
      + intros [= <-]. eexists. split; [reflexivity|]. reflexivity.
      + apply C.
    - intros x y c. rewrite ED. intros E. apply LK. eapply co_dis; eauto.
    - intros x y c. rewrite !ED. apply C.
    - intros x y c d. rewrite EA, ED. destruct (pair_is x y a b) eqn:P.
      + intros _ E. apply pair_is_true in P as [[-> ->]|[-> ->]]; destruct U, U'; congruence.
      + apply C.
    - intros x y. rewrite F3, ED. apply C.
    - intros x y. rewrite F3, EA. intros Ex Ey. destruct (pair_is x y a b) eqn:P.
      + exfalso. apply pair_is_true in P as [[-> ->]|[-> ->]]; auto.
      + apply C; auto.
    - intros x g. rewrite F8. intros I. destruct (co_un _ _ C x g I) as (J & w & Hw & E). split; auto. exists w. rewrite VA. auto.
    - intros x. rewrite F8. apply C.
    - apply NoDup_snoc; auto. apply C.
    - intros g. rewrite in_app_iff. intros [I|[<-|[]]].
      + destruct (co_fac _ _ C g I) as [(w & x & E & Hw & Hi)|(wa & wb & x & y & c & E & Hx & Hy & Hc & Eg)].
        * left. exists w, x. rewrite F8, VA. auto.
        * right. exists wa, wb, x, y, c. rewrite EA, ED, !VA. splits; auto.
          destruct (pair_is x y a b) eqn:P; auto. exfalso.
          apply pair_is_true in P as [[-> ->]|[-> ->]]; destruct U, U', Hc; congruence.
      + right. destruct (activate_act_pair s a b f a b Hab) as (c & Hc & Ec & _). apply pair_is_true; auto.
        exists va, vb, a, b, c. rewrite !VA. splits; auto.
    - intros x y c k w. rewrite F3, ED, VA. apply C.
    - intros x m. rewrite F3, (FM x). intros E Em. eapply merged_for_ext; [apply F8|apply ED| | |eapply (co_merged _ _ C); eauto].
      + apply dis_keys_eq; auto; unfold gsize; rewrite F1; auto.
      + rewrite F1. auto.
  Qed.

  Lemma activate_eact s a b f x y : a <> b -> (eact (activate s a b f) x y <-> eact s x y \/ (x = a /\ y = b) \/ (x = b /\ y = a)).
  Proof.
    intros Hab. unfold eact. rewrite activate_act by auto. rewrite <- pair_is_true. destruct (pair_is x y a b).
    - split; auto. intros _. eexists; reflexivity.
    - split; auto. intros [E|E]; auto; discriminate.
  Qed.

  Lemma activate_topo s a b f nodes ts : a <> b -> ~ In a nodes -> ~ In b nodes -> topo_ok s nodes ts -> topo_ok (activate s a b f) nodes ts.
  Proof.
    intros Hab Na Nb. apply topo_ok_ext. intros x y I. rewrite activate_act by auto.
    destruct (pair_is x y a b) eqn:P; auto. exfalso. apply pair_is_true in P as [[-> ->]|[-> ->]]; tauto.
  Qed.

  (** a state where the connections of disabled nodes have changed *)
  Lemma dis_core s s' fs a b va vb f : core s fs -> a <> b -> var_at s a va -> var_at s b vb ->
    fvars H f = [va; vb] \/ fvars H f = [vb; va] -> ~ In f fs -> unlinked s a b -> ~ (g_ev s a = None /\ g_ev s b = None) ->
    g_vars s' = g_vars s -> g_ev s' = g_ev s -> (forall x, nd_un (g_node s' x) = nd_un (g_node s x)) ->
    (forall x y, act s' x y = act s x y) ->
    (forall x y, pair_is x y a b = false -> dis s' x y = dis s x y) ->
    (forall x y, pair_is x y a b = true -> exists c, dis s' x y = Some c /\ c_fac c = f /\
       (g_ev s x = None -> forall k w, g_ev s y = Some k -> var_at s y w -> exists m, c_msg c = Some m /\ evidence_factor (H f) w k = Ok m)) ->
    (forall x, g_ev s x = None -> nd_merged (g_node s' x) = None \/ (x <> a /\ x <> b /\ nd_merged (g_node s' x) = nd_merged (g_node s x))) ->
    core s' (fs ++ [f]).
  Proof.
    intros C Hab Ha Hb Ef NI U HO F1 F3 F8 EA ED EP EM. pose proof (unlinked_sym s fs a b C U) as U'.
    assert (VA : forall x w, var_at s' x w <-> var_at s x w) by (intros; unfold var_at; rewrite F1; tauto).
    assert (I1 : incl fs (fs ++ [f])) by (intros x Hx; apply in_app_iff; auto).
    assert (LK : forall x y g, link s fs x y g -> link s' (fs ++ [f]) x y g).
    { intros x y g. apply link_mono; [intros; apply VA; auto|auto]. }
    assert (LN : link s' (fs ++ [f]) a b f).
    { split; auto. split. apply in_app_iff; simpl; auto. exists va, vb. rewrite !VA. auto. }
    assert (NP : forall x y, pair_is x y a b = true -> act s x y = None /\ dis s x y = None).
    { intros x y P. apply pair_is_true in P as [[-> ->]|[-> ->]]; auto. }
    constructor.
    - rewrite F1. apply C.
    - rewrite F1. apply C.
    - rewrite F3. intros x k E. destruct (co_ev _ _ C x k E) as (w & Hw & L). exists w. rewrite VA. auto.
    - intros x y c. rewrite EA. intros E. apply LK. eapply co_act; eauto.
    - intros x y c. rewrite !EA. apply C.
    - intros x y c. destruct (pair_is x y a b) eqn:P.
      + destruct (EP x y P) as (c' & -> & Ec & _). intros [= <-]. rewrite Ec.
        apply pair_is_true in P as [[-> ->]|[-> ->]]; auto. apply link_sym; auto.
      + rewrite ED by auto. intros E. apply LK. eapply co_dis; eauto.
    - intros x y c. destruct (pair_is x y a b) eqn:P.
      + destruct (EP x y P) as (c' & -> & Ec & _). intros [= <-]. rewrite pair_is_sym in P.
        destruct (EP y x P) as (c2 & -> & Ec2 & _). exists c2. split; auto. congruence.
      + rewrite ED by auto. rewrite pair_is_sym in P. rewrite ED by auto. apply C.
    - intros x y c d. rewrite EA. destruct (pair_is x y a b) eqn:P.
      + apply NP in P as [-> _]. discriminate.
      + rewrite ED by auto. apply C.
    - intros x y. rewrite F3. intros Ex Ey. destruct (pair_is x y a b) eqn:P.
      + exfalso. apply pair_is_true in P as [[-> ->]|[-> ->]]; auto.
      + rewrite ED by auto. apply C; auto.
    - intros x y. rewrite F3, EA. apply C.
    - intros x g. rewrite F8. intros I. destruct (co_un _ _ C x g I) as (J & w & Hw & E). split; auto. exists w. rewrite VA. auto.
    - intros x. rewrite F8. apply C.
    - apply NoDup_snoc; auto. apply C.
    - intros g. rewrite in_app_iff. intros [I|[<-|[]]].
      + destruct (co_fac _ _ C g I) as [(w & x & E & Hw & Hi)|(wa & wb & x & y & c & E & Hx & Hy & Hc & Eg)].
        * left. exists w, x. rewrite F8, VA. auto.
        * right. exists wa, wb, x, y, c. rewrite EA, !VA.
          destruct (pair_is x y a b) eqn:P.
          -- exfalso. apply NP in P as [? ?]. destruct Hc; congruence.
          -- rewrite ED by auto. splits; auto.
      + right. destruct Ef as [Ef|Ef].
        * destruct (EP a b) as (c & Hc & Ec & _). apply pair_is_true; auto.
          exists va, vb, a, b, c. rewrite !VA. splits; auto.
        * destruct (EP b a) as (c & Hc & Ec & _). apply pair_is_true; auto.
          exists vb, va, b, a, c. rewrite !VA. splits; auto.
    - intros x y c k w. rewrite F3, VA. intros Ex Ey Ec Hw. destruct (pair_is x y a b) eqn:P.
      + destruct (EP x y P) as (c' & Ec' & Efc & Q). rewrite Ec' in Ec. injection Ec as <-. rewrite Efc. eapply Q; eauto.
      + rewrite ED in Ec by auto. eapply (co_msg _ _ C); eauto.
    - intros x m. rewrite F3. intros E Em. destruct (EM x E) as [Q|(Q1 & Q2 & Q)]. congruence.
      assert (EDx : forall y, dis s' x y = dis s x y).
      { intros y. apply ED. destruct (pair_is x y a b) eqn:P; auto. apply pair_is_true in P as [[-> ->]|[-> ->]]; congruence. }
      rewrite Q in Em. eapply merged_for_ext; [apply F8|apply EDx| | |eapply (co_merged _ _ C); eauto].
      + apply dis_keys_eq; auto; unfold gsize; rewrite F1; auto.
      + rewrite F1. auto.
  Qed.

  (** the factor as a binary function *)
  Lemma factor_binary f x y : fvars H f = [x; y] -> binary x y (H f).
  Proof.
    intros E. destruct (HG f) as ((W & WG) & _). unfold fvars in E. split; auto. split; auto.
    destruct WG as [ND _]. change (g_soup (f_group (H f))) with (f_vars (H f)) in ND. rewrite E in ND.
    intros ->. inversion ND as [|? ? NI _]; subst. apply NI. simpl. auto.
  Qed.
  Lemma factor_keys f x y : fvars H f = [x; y] -> vkey x <> vkey y.
  Proof.
    intros E. destruct (HG f) as ((W & WG) & _). unfold fvars in E.
    destruct WG as [ND _]. change (g_soup (f_group (H f))) with (f_vars (H f)) in ND. rewrite E in ND.
    intros Q. inversion ND as [|? ? NI _]; subst. apply NI. simpl. auto.
  Qed.

  Lemma hybrid_ok s fs hidn ev vh ve k f : core s fs -> clus s -> hidn <> ev -> var_at s hidn vh -> var_at s ev ve ->
    fvars H f = [vh; ve] \/ fvars H f = [ve; vh] -> ~ In f fs -> unlinked s hidn ev ->
    g_ev s hidn = None -> g_ev s ev = Some k ->
    exists s', hybrid_insertion H s hidn ev k f = Ret tt s' /\ core s' (fs ++ [f]) /\ clus s' /\
      g_vars s' = g_vars s /\ g_ev s' = g_ev s /\ g_all s' = g_all s /\ g_last s' = g_last s /\
      forall x y, act s' x y = act s x y.
  Proof.
    intros C CS Hne Hh He Ef NI U Eh Ee. unfold hybrid_insertion.
    destruct (disable_frame s hidn ev f) as [(F1 & F2 & F3 & F4 & F5 & F6 & F7 & F8) FM].
    destruct (co_ev _ _ C ev k Ee) as (w & Hw & Lk). assert (w = ve) by (eapply var_at_fun; eauto). subst w.
    assert (EN : node_var (disable s hidn ev f) ev = Ok ve) by (unfold node_var, vget; rewrite F1, He; auto).
    rewrite EN. cbn [lift obind].
    assert (EV : exists m, evidence_factor (H f) ve k = Ok m).
    { destruct Ef as [Ef|Ef]; [pose proof (evidence_factor_ok (H f) vh ve ve vh k (factor_binary f _ _ Ef) ltac:(auto) Lk) as (m & Em & _)
                              |pose proof (evidence_factor_ok (H f) ve vh ve vh k (factor_binary f _ _ Ef) ltac:(auto) Lk) as (m & Em & _)]; eauto. }
    destruct EV as (m & Em). rewrite Em. cbn [lift obind].
    destruct (disable_dis_pair s hidn ev f hidn ev Hne) as (c & Hc & Ec & _). apply pair_is_true; auto.
    destruct (set_dis_msg_spec _ hidn ev c m Hc) as (s2 & -> & (G1 & G2 & G3 & G4 & G5 & G6 & G7 & G8) & GM & GA & GD & GO).
    cbn [obind]. eexists. split; [reflexivity|]. set (s3 := drop_merged s2 hidn).
    assert (EA : forall x y, act s3 x y = act s x y).
    { intros x y. unfold s3. rewrite drop_merged_act, GA, disable_act by auto. destruct (pair_is x y hidn ev) eqn:P; auto.
      pose proof (unlinked_sym _ _ _ _ C U) as U'. apply pair_is_true in P as [[-> ->]|[-> ->]]; destruct U, U'; auto. }
    assert (E1 : g_vars s3 = g_vars s) by (simpl; congruence).
    assert (E3 : g_ev s3 = g_ev s) by (simpl; congruence).
    split; [|split].
    - eapply (dis_core s s3 fs hidn ev vh ve f); auto.
      + intros [_ Q]. congruence.
      + intros x. transitivity (nd_un (g_node s2 x)). apply drop_merged_frame. rewrite G8, F8. reflexivity.
      + intros x y P. unfold s3. rewrite drop_merged_dis, GO.
        rewrite disable_dis, P by auto. reflexivity.
        intros [= -> ->]. assert (P' : pair_is hidn ev hidn ev = true) by (apply pair_is_true; auto). congruence.
      + intros x y P. unfold s3. rewrite drop_merged_dis. apply pair_is_true in P as [[-> ->]|[-> ->]].
        * exists (with_msg c (Some m)). rewrite GD. splits; auto. intros _ k' w' Ek Hw'.
          exists m. split; auto. rewrite Ee in Ek. injection Ek as <-. rewrite (var_at_fun s ev w' ve); auto.
        * destruct (disable_dis_pair s hidn ev f ev hidn Hne) as (c2 & Hc2 & Ec2 & _). apply pair_is_true; auto.
          exists c2. rewrite GO by congruence. splits; auto. intros Q. congruence.
      + intros x Ex. unfold s3. rewrite drop_merged_merged. destruct (Nat.eqb_spec x hidn); auto. right.
        splits; auto. congruence. rewrite (GM x). apply FM.
    - eapply clus_ext; [| | |exact CS]. simpl; congruence. apply hid_ext; auto. unfold gsize; rewrite E1; auto.
      intros x y. rewrite EA. auto.
    - splits; auto; simpl; congruence.
  Qed.

  (** [va] and [vb] are the variables of a factor already in the model *)
  Definition joined (fs : list nat) va vb : Prop :=
    exists g, In g fs /\ (fvars H g = [va; vb] \/ fvars H g = [vb; va]).

  Lemma joined_spec s fs a b va vb : core s fs -> var_at s a va -> var_at s b vb ->
    (is_some (act s a b) || is_some (dis s a b) = true <-> joined fs va vb).
  Proof.
    intros C Ha Hb. rewrite orb_true_iff, !is_some_true. split.
    - intros [[c E]|[c E]]; [apply (co_act _ _ C) in E|apply (co_dis _ _ C) in E];
      destruct E as (_ & I & wa & wb & Hwa & Hwb & E); exists (c_fac c); split; auto;
      rewrite (var_at_fun s a va wa), (var_at_fun s b vb wb); auto.
    - intros (g & I & E). destruct (co_fac _ _ C g I) as [(w & x & E' & _)|(wa & wb & x & y & c & E' & Hx & Hy & Hc & _)].
      + rewrite E' in E. destruct E; discriminate.
      + rewrite E' in E. destruct E as [E|E]; injection E as -> ->.
        * destruct (var_at_inj s x a va va) as [-> _]; auto. apply C. destruct (var_at_inj s y b vb vb) as [-> _]; auto. apply C.
          destruct Hc; eauto.
        * destruct (var_at_inj s x b vb vb) as [-> _]; auto. apply C. destruct (var_at_inj s y a va va) as [-> _]; auto. apply C.
          destruct Hc as [Hc|Hc]; [apply (co_act_sym _ _ C) in Hc as (c' & Hc & _)|apply (co_dis_sym _ _ C) in Hc as (c' & Hc & _)]; eauto.
  Qed.

  Lemma add_binary_ok s fs f va vb : core s fs -> clus s -> fvars H f = [va; vb] -> ~ In f fs ->
    (conflict s va /\ add_binary H s f = Thr s) \/
    (~ conflict s va /\ exists s1, core s1 fs /\ clus s1 /\ g_vars s1 = vset_add (g_vars s) va /\ g_ev s1 = g_ev s /\
       g_all s1 = g_all s /\ g_last s1 = g_last s /\ (clean s -> clean s1) /\
       ((conflict s vb /\ add_binary H s f = Thr s1) \/
        (~ conflict s vb /\ exists s', g_vars s' = vset_add (vset_add (g_vars s) va) vb /\ g_ev s' = g_ev s /\
          g_all s' = g_all s /\ g_last s' = g_last s /\ (clean s -> clean s') /\ clus s' /\
          ((joined fs va vb /\ core s' fs /\ add_binary H s f = Thr s') \/
           (~ joined fs va vb /\ core s' (fs ++ [f]) /\ add_binary H s f = Ret tt s'))))).
  Proof.
    intros C CS Ef NI. unfold add_binary. rewrite Ef. cbn [length Nat.sub vget nth_error lift obind].
    assert (Hm : made va /\ made vb) by (pose proof (factor_made f) as F; rewrite Ef in F; inversion F as [|? ? ? F2]; inversion F2; auto).
    destruct Hm as [Hma Hmb].
    destruct (find_or_make_ok s fs va C CS Hma) as [[Q ->]|(Q & a & la & s1 & -> & C1 & CS1 & L1 & Ha & EV1 & G1)]; auto.
    right. split; auto. cbn [obind]. exists s1. splits; auto; try apply G1; try (apply grow_clean; auto).
    assert (CF : conflict s1 vb <-> conflict s vb).
    { unfold conflict. rewrite EV1. unfold vset_add. destruct (vset_mem (g_vars s) va); [tauto|].
      setoid_rewrite in_app_iff. split.
      - intros (w & [I|[<-|[]]] & E & Hne). eauto. exfalso. eapply (factor_keys f va vb); eauto.
      - intros (w & I & E & Hne). eauto. }
    destruct (find_or_make_ok s1 fs vb C1 CS1 Hmb) as [[Q2 ->]|(Q2 & b & lb & s2 & -> & C2 & CS2 & L2 & Hb & EV2 & G2)].
    { left. rewrite <- CF. auto. }
    right. split. { rewrite <- CF. auto. } cbn [obind].
    pose proof (gr_loc _ _ G2 a la L1) as L1'. pose proof (gr_at _ _ G2 a va Ha) as Ha'.
    pose proof (grow_trans _ _ _ G1 G2) as G. rewrite EV1 in EV2.
    assert (Hab : a <> b).
    { intros ->. eapply (factor_keys f va vb Ef). f_equal. eapply var_at_fun; eauto. }
    pose proof (joined_spec s2 fs a b va vb C2 Ha' Hb) as J.
    destruct (is_some (act s2 a b) || is_some (dis s2 a b)) eqn:EJ.
    { exists s2. splits; auto; try apply G; try (apply grow_clean; auto). left. splits; auto. apply J; auto. }
    assert (NJ : ~ joined fs va vb) by (intros Q3; apply J in Q3; discriminate).
    assert (U : unlinked s2 a b).
    { apply orb_false_iff in EJ as [E1 E2]. apply is_some_false in E1, E2. split; auto. }
    assert (K : exists s', connect H s2 a b la lb f = Ret tt s' /\ core s' (fs ++ [f]) /\ clus s' /\
      g_vars s' = g_vars s2 /\ g_ev s' = g_ev s2 /\ g_all s' = g_all s2 /\ g_last s' = g_last s2 /\
      (clean s2 -> clean s')).
    2:{ destruct K as (s' & E & C' & CS' & R1 & R2 & R3 & R4 & R5). exists s'. rewrite R1, R2, R3, R4.
        splits; auto; try apply G. intros CL. apply R5. eapply grow_clean; eauto. }
    unfold connect.
    destruct la as [i|ka], lb as [j|kb]; simpl in L1', L2.
    - destruct L1' as (Ea & ci & Hi & Hai). destruct L2 as (Eb & cj & Hj & Hbj).
      pose proof (activate_core s2 fs a b va vb f C2 Hab Ha' Hb Ef NI U Ea Eb) as C3.
      destruct (activate_frame s2 a b f) as [(F1 & F2 & F3 & F4 & F5 & F6 & F7 & F8) FM].
      set (s3 := activate s2 a b f) in *. unfold get_cl at 1, vget at 1. rewrite F2, Hi. cbn [lift obind].
      assert (EH : hid s3 = hid s2) by (apply hid_ext; auto; unfold gsize; rewrite F1; auto).
      assert (OTH : forall cl ts, In cl (g_cl s2) -> cl_topo cl = Some ts -> ~ In a (cl_nodes cl) -> ~ In b (cl_nodes cl) ->
                     topo_ok s3 (cl_nodes cl) ts).
      { intros cl ts Hc Ht N1 N2. apply activate_topo; auto. eapply cs_topo; eauto. }
      assert (IN : forall cl k, In cl (g_cl s2) -> In k (cl_nodes cl) -> forall n cl', nth_error (g_cl s2) n = Some cl' -> In k (cl_nodes cl') -> cl = cl').
      { intros cl k Hc Hk n cl' Hn Hk'. apply In_nth_error in Hc as [m Hm']. rewrite (clus_index s2 m n cl cl' k) in Hm'; auto. congruence. }
      destruct (Nat.eqb_spec i j) as [->|Hij].
      + assert (cj = ci) by congruence. subst cj. eexists. split; [reflexivity|].
        split. { destruct C3. constructor; auto. }
        split; [|simpl; splits; auto; intros CL x y E; apply (activate_eact s2 a b f x y Hab) in E;
                 change (g_ev (set_cl _ _)) with (g_ev s2); destruct E as [E|[[-> ->]|[-> ->]]]; auto; apply CL; auto].
        constructor.
        * cbn [g_cl set_cl]. rewrite F2, map_lset. cbn [cl_nodes].
          rewrite (lset_same (map cl_nodes (g_cl s2)) j (cl_nodes ci)) by (rewrite nth_error_map, Hi; auto).
          change (hid (set_cl s3 _)) with (hid s3). rewrite EH.
          eapply (components_add_edge (eact s2) _ a b _ _ (cl_nodes ci)); [|apply CS2| | |]; auto.
          -- intros x y. change (eact (set_cl s3 _) x y) with (eact s3 x y). apply activate_eact; auto.
          -- apply in_map. eapply nth_error_In; eauto.
        * cbn [g_cl set_cl]. rewrite F2. intros cl ts I Ht.
          assert (Hcl : In cl (g_cl s2) /\ ~ In a (cl_nodes cl) /\ ~ In b (cl_nodes cl)).
          { apply In_nth_error in I as [n Hn]. destruct (Nat.eq_dec n j) as [->|Hnj].
            - rewrite nth_error_lset_eq in Hn by (eapply nth_error_lt; eauto). injection Hn as <-. discriminate.
            - rewrite nth_error_lset_ne in Hn by auto. split. eapply nth_error_In; eauto.
              split; intros I'; apply Hnj; eapply clus_index; eauto. }
          destruct Hcl as (Hcl & N1 & N2). specialize (OTH cl ts Hcl Ht N1 N2).
          eapply topo_ok_ext; [|exact OTH]. reflexivity.
      + unfold get_cl, vget. cbn [g_cl set_cl]. rewrite F2, nth_error_lset_ne, Hj by auto. cbn [lift obind].
        eexists. split; [reflexivity|].
        split. { destruct C3. constructor; auto. }
        split; [|simpl; splits; auto; intros CL x y E; apply (activate_eact s2 a b f x y Hab) in E;
                 change (g_ev (set_cl _ _)) with (g_ev s2); destruct E as [E|[[-> ->]|[-> ->]]]; auto; apply CL; auto].
        assert (LL : forall x y : cluster, lset (lset (g_cl s2) i x) i y = lset (g_cl s2) i y).
        { intros x y. clear. revert i. induction (g_cl s2) as [|z l IH]; intros [|i]; simpl; auto. rewrite IH; auto. }
        constructor.
        * cbn [g_cl set_cl]. change (hid (set_cl _ _)) with (hid s3). rewrite EH, ?F2, LL.
          rewrite map_without, map_lset. cbn [cl_nodes].
          destruct (merge_lists_perm (map cl_nodes (g_cl s2)) i j (cl_nodes ci) (cl_nodes cj) (cl_nodes ci ++ cl_nodes cj) Hij)
            as (rest & P1 & P2). rewrite nth_error_map, Hi; auto. rewrite nth_error_map, Hj; auto.
          eapply components_perm; [exact P2|]. eapply (components_merge (eact s2) _ a b); auto.
          -- intros x y. change (eact (set_cl _ _) x y) with (eact s3 x y). apply activate_eact; auto.
          -- apply hid_NoDup.
          -- eapply components_perm; [symmetry; exact P1|]. apply CS2.
        * cbn [g_cl set_cl]. rewrite ?F2. intros cl ts I Ht. rewrite LL in I.
          assert (Hcl : In cl (g_cl s2) /\ ~ In a (cl_nodes cl) /\ ~ In b (cl_nodes cl)).
          { assert (exists n, n <> j /\ nth_error (lset (g_cl s2) i (mkCl (cl_nodes ci ++ cl_nodes cj) None)) n = Some cl) as (n & Hnj & Hn).
            { rewrite (without_map _ _ cl) in I. apply in_map_iff in I as (n & En & I). apply filter_In in I as [I1 I2].
              exists n. split. intros ->. simpl in I2. rewrite Nat.eqb_refl in I2. discriminate.
              rewrite <- En. apply nth_error_nth'. apply in_seq in I1. lia. }
            destruct (Nat.eq_dec n i) as [->|Hni].
            - rewrite nth_error_lset_eq in Hn by (eapply nth_error_lt; eauto). injection Hn as <-. discriminate.
            - rewrite nth_error_lset_ne in Hn by auto. split. eapply nth_error_In; eauto.
              split; intros I'; [apply Hni|apply Hnj]; eapply clus_index; eauto. }
          destruct Hcl as (Hcl & N1 & N2). specialize (OTH cl ts Hcl Ht N1 N2).
          eapply topo_ok_ext; [|exact OTH]. reflexivity.
    - destruct L1' as (Ea & _).
      destruct (hybrid_ok s2 fs a b va vb kb f C2 CS2 Hab Ha' Hb ltac:(auto) NI U Ea L2) as (s3 & E3 & C3 & CS3 & R1 & R2 & R3 & R4 & R5).
      exists s3. splits; auto. intros CL x y [c E]. rewrite R5 in E. rewrite R2. apply CL. exists c; auto.
    - destruct L2 as (Eb & _).
      destruct (hybrid_ok s2 fs b a vb va ka f C2 CS2 ltac:(auto) Hb Ha' ltac:(auto) NI (unlinked_sym _ _ _ _ C2 U) Eb L1') as (s3 & E3 & C3 & CS3 & R1 & R2 & R3 & R4 & R5).
      exists s3. splits; auto. intros CL x y [c E]. rewrite R5 in E. rewrite R2. apply CL. exists c; auto.
    - destruct (disable_frame s2 a b f) as [(F1 & F2 & F3 & F4 & F5 & F6 & F7 & F8) FM].
      assert (EA : forall x y, act (disable s2 a b f) x y = act s2 x y).
      { intros x y. rewrite disable_act by auto. destruct (pair_is x y a b) eqn:P; auto.
        pose proof (unlinked_sym _ _ _ _ C2 U) as U'. apply pair_is_true in P as [[-> ->]|[-> ->]]; destruct U, U'; auto. }
      exists (disable s2 a b f). split; auto. split; [|split; [|splits; auto; intros CL x y [c E]; rewrite EA in E; rewrite F3; apply CL; exists c; auto]].
      2:{ eapply clus_ext; [exact F2|apply hid_ext; [exact F3|unfold gsize; rewrite F1; auto]| |exact CS2]. intros; rewrite EA; auto. }
      eapply (dis_core s2 _ fs a b va vb f); auto.
        * intros [Q3 _]. congruence.
        * intros x y P. rewrite disable_dis, P by auto. reflexivity.
        * intros x y P. destruct (disable_dis_pair s2 a b f x y Hab P) as (c & Hc & Ec & _). exists c. splits; auto.
          intros Q3. exfalso. apply pair_is_true in P as [[-> ->]|[-> ->]]; congruence.
        * intros x Ex. right. splits. congruence. congruence. apply FM.
  Qed.
End Inv.
