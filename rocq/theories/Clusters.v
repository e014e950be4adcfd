(** [compute_clusters] gives the connected components *)
From Coq Require Import List Arith Bool Lia Permutation Relations.
From Verif Require Import Res Num Categoric Func Special Graph GraphLemmas.
Import ListNotations.
Open Scope nat_scope.

(** [y] is reached from [x] through edges of [A] between elements of [P] *)
Definition linked (A : nat -> nat -> Prop) (P : nat -> Prop) : nat -> nat -> Prop :=
  clos_refl_trans nat (fun x y => A x y /\ P x /\ P y).

Lemma linked_mono (A B : nat -> nat -> Prop) (P Q : nat -> Prop) x y :
  (forall x y, P x -> P y -> A x y -> B x y) -> (forall x, P x -> Q x) -> linked A P x y -> linked B Q x y.
Proof.
  intros HA HP H. induction H as [x y (H1 & H2 & H3)| |x y z H1 IH1 H2 IH2].
  - apply rt_step. auto.
  - apply rt_refl.
  - eapply rt_trans; eauto.
Qed.
Lemma linked_sym (A : nat -> nat -> Prop) P x y : (forall x y, A x y -> A y x) -> linked A P x y -> linked A P y x.
Proof.
  intros HA H. induction H as [x y (H1 & H2 & H3)| |x y z H1 IH1 H2 IH2].
  - apply rt_step. auto.
  - apply rt_refl.
  - eapply rt_trans; eauto.
Qed.
Lemma linked_closed (A : nat -> nat -> Prop) (P Q : nat -> Prop) x y :
  (forall x y, Q x -> P x -> P y -> A x y -> Q y) -> linked A P x y -> Q x -> Q y.
Proof.
  intros HQ H. induction H as [x y (H1 & H2 & H3)| |x y z H1 IH1 H2 IH2]; eauto.
Qed.

(** [res] is the partition of [dom] in connected components of [A] *)
Record components (A : nat -> nat -> Prop) (dom : list nat) (res : list (list nat)) : Prop := {
  cp_perm : Permutation (concat res) dom;
  cp_ne : forall c, In c res -> c <> [];
  cp_closed : forall c x y, In c res -> In x c -> A x y -> In y dom -> In y c;
  cp_conn : forall c x y, In c res -> In x c -> In y c -> linked A (fun z => In z dom) x y
}.

Lemma components_perm A dom res res' : Permutation res' res -> components A dom res -> components A dom res'.
Proof.
  intros P [H1 H2 H3 H4]. assert (HI : forall c, In c res' -> In c res) by (intros c; apply (Permutation_in _ P)).
  constructor; eauto. rewrite <- H1. clear - P.
  induction P; simpl; auto.
  - apply Permutation_app_head; auto.
  - rewrite !app_assoc. apply Permutation_app_tail, Permutation_app_comm.
  - etransitivity; eauto.
Qed.

Lemma components_dom_perm A dom dom' res : Permutation dom' dom -> components A dom res -> components A dom' res.
Proof.
  intros P [H1 H2 H3 H4]. constructor; auto.
  - rewrite H1. symmetry; auto.
  - intros c x y Hc Hx HA Hy. apply (H3 c x y); auto. apply (Permutation_in _ P Hy).
  - intros c x y Hc Hx Hy. eapply linked_mono; [| |apply (H4 c); eauto]; auto.
    intros z Hz. apply (Permutation_in _ (Permutation_sym P) Hz).
Qed.

(** two partitions in connected components have the same blocks *)
Lemma components_same (A : nat -> nat -> Prop) dom res c x y : (forall x y, A x y -> A y x) -> components A dom res ->
  In c res -> In x c -> (In y c <-> linked A (fun z => In z dom) x y).
Proof.
  intros HA C Hc Hx. split. intros Hy. eapply cp_conn; eauto.
  intros L. eapply (linked_closed A (fun z => In z dom) (fun z => In z c)); eauto.
  simpl. intros u v Hu Hu' Hv HAuv. eapply cp_closed; eauto.
Qed.

Lemma concat_In {A} (l : list (list A)) x : In x (concat l) <-> exists c, In c l /\ In x c.
Proof. apply in_concat. Qed.

Lemma NoDup_app_disj {A} (l1 l2 : list A) : NoDup (l1 ++ l2) -> forall x, In x l1 -> In x l2 -> False.
Proof.
  induction l1 as [|y l1 IH]; simpl; intros H x H1 H2; auto.
  inversion H as [|? ? Hn Hd]; subst. destruct H1 as [->|H1].
  - apply Hn. apply in_app_iff. auto.
  - eapply IH; eauto.
Qed.
Lemma NoDup_app_parts {A} (l1 l2 : list A) : NoDup (l1 ++ l2) -> NoDup l1 /\ NoDup l2.
Proof.
  intros H. split.
  - induction l1 as [|x l1 IH]; constructor; inversion H; subst; auto.
    intros Hx. apply H2. apply in_app_iff; auto.
  - induction l1 as [|x l1 IH]; auto. inversion H; subst. auto.
Qed.

Lemma nodup_concat_index {A} (l : list (list A)) i j c d x : NoDup (concat l) ->
  nth_error l i = Some c -> nth_error l j = Some d -> In x c -> In x d -> i = j.
Proof.
  revert i j; induction l as [|e l IH]; intros [|i] [|j] ND Hi Hj Hc Hd; simpl in *; try discriminate; auto.
  - injection Hi as ->. exfalso. eapply NoDup_app_disj; eauto. apply concat_In. exists d. split; auto.
    eapply nth_error_In; eauto.
  - injection Hj as ->. exfalso. eapply NoDup_app_disj; eauto. apply concat_In. exists c. split; auto.
    eapply nth_error_In; eauto.
  - f_equal. apply (IH i j); auto. apply (NoDup_app_parts _ _ ND).
Qed.

Section Step.
  Variable nb : nat -> list nat.
  Variable oh : nat -> list nat -> list nat.
  Hypothesis oh_perm : forall a l, Permutation (oh a l) l.
  Hypothesis nb_sym : forall x y, In y (nb x) -> In x (nb y).

  Definition hits (res : list (list nat)) (a : nat) : list nat :=
    nodup Nat.eq_dec
      (flat_map (fun k => match find_pos (mem k) res with Some i => [i] | None => [] end) (nb a)).
  Definition cstep (res : list (list nat)) (a : nat) : list (list nat) :=
    match hits res a with
    | [] => res ++ [[a]]
    | [i] => lset res i (a :: nodes_of res i)
    | _ => without (hits res a) res ++ [a :: flat_map (nodes_of res) (oh a (hits res a))]
    end.

  Let A x y := In y (nb x).

  Lemma hits_spec res a i : NoDup (concat res) ->
    In i (hits res a) <-> i < length res /\ exists k, In k (nb a) /\ In k (nodes_of res i).
  Proof.
    intros ND. unfold hits. rewrite nodup_In, in_flat_map. split.
    - intros (k & Hk & Hi). destruct (find_pos (mem k) res) as [j|] eqn:E; [|destruct Hi].
      destruct Hi as [<-|[]]. apply find_pos_some in E as (c & Hc & Hm & _). apply mem_In in Hm.
      split. apply nth_error_Some. congruence. exists k. split; auto.
      unfold nodes_of. rewrite (nth_error_nth _ _ [] Hc). auto.
    - intros (Hi & k & Hk & Hin). exists k. split; auto.
      destruct (find_pos (mem k) res) as [j|] eqn:E.
      + left. apply find_pos_some in E as (c & Hc & Hm & _). apply mem_In in Hm.
        destruct (nth_error res i) as [d|] eqn:Ei.
        * unfold nodes_of in Hin. rewrite (nth_error_nth _ _ [] Ei) in Hin.
          eapply nodup_concat_index; eauto.
        * apply nth_error_None in Ei. lia.
      + exfalso. rewrite find_pos_none in E.
        assert (Hd : In (nodes_of res i) res) by (apply nth_In; auto).
        apply E in Hd. apply mem_false in Hd. auto.
  Qed.

  (** the three cases of the code give, up to the order, the same list *)
  Lemma cstep_perm res a : NoDup (concat res) ->
    exists ps, Permutation ps (hits res a) /\
      Permutation (cstep res a) (without (hits res a) res ++ [a :: flat_map (nodes_of res) ps]).
  Proof.
    intros ND. unfold cstep.
    pose proof (fun i => hits_spec res a i ND) as HS.
    destruct (hits res a) as [|i [|j r]] eqn:E.
    - exists []. split; auto. simpl. rewrite (without_map [] res []).
      rewrite (filter_ext _ (fun _ => true)) by reflexivity.
      assert (T : forall l : list nat, filter (fun _ => true) l = l) by (induction l; simpl; congruence).
      rewrite T, map_nth_seq. auto.
    - exists [i]. split; auto. simpl. rewrite app_nil_r. apply (lset_perm res i _ []).
      apply HS. left; auto.
    - exists (oh a (i :: j :: r)). split; auto.
  Qed.

  Lemma cstep_ok res a done : components A done res -> NoDup done -> ~ In a done ->
    components A (done ++ [a]) (cstep res a).
  Proof.
    intros C ND Ha.
    assert (NDc : NoDup (concat res)) by (eapply Permutation_NoDup; [symmetry; apply (cp_perm _ _ _ C)|auto]).
    destruct (cstep_perm res a NDc) as (ps & Pps & P). eapply components_perm; [exact P|]. clear P.
    assert (HS : forall i, In i ps <-> i < length res /\ exists k, In k (nb a) /\ In k (nodes_of res i)).
    { intros i. rewrite (perm_In _ _ i Pps). apply hits_spec; auto. }
    assert (NDps : NoDup (hits res a)) by apply NoDup_nodup.
    set (big := a :: flat_map (nodes_of res) ps).
    assert (Wp : Permutation res (without (hits res a) res ++ map (nodes_of res) ps)).
    { assert (W : Permutation res (without (hits res a) res ++ map (fun i => nth i res []) (hits res a))).
      { apply without_perm; auto. intros i Hi. apply hits_spec in Hi; tauto. }
      rewrite W at 1. apply Permutation_app_head. apply Permutation_map. symmetry; auto. }
    assert (InR : forall c, In c (without (hits res a) res) -> In c res).
    { intros c Hc. apply (Permutation_in _ (Permutation_sym Wp)). apply in_app_iff; auto. }
    assert (InH : forall i, In i ps -> In (nodes_of res i) res).
    { intros i Hi. apply nth_In. apply HS; auto. }
    assert (CP : Permutation (concat res) (concat (without (hits res a) res) ++ flat_map (nodes_of res) ps)).
    { rewrite flat_map_concat_map, <- concat_app. clear - Wp.
      induction Wp; simpl; auto.
      - apply Permutation_app_head; auto.
      - rewrite !app_assoc. apply Permutation_app_tail, Permutation_app_comm.
      - etransitivity; eauto. }
    assert (InD : forall x, In x done <-> In x (concat res)).
    { intros x. symmetry. apply perm_In, (cp_perm _ _ _ C). }
    assert (Big : forall x, In x (flat_map (nodes_of res) ps) <-> exists i, In i ps /\ In x (nodes_of res i)).
    { intros x. apply in_flat_map. }
    assert (Lk : forall x y, linked A (fun z => In z done) x y -> linked A (fun z => In z (done ++ [a])) x y).
    { intros x y. apply linked_mono; auto. intros z Hz. apply in_app_iff; auto. }
    assert (SYM : forall x y, A x y -> A y x) by (intros x y; apply nb_sym).
    constructor.
    - rewrite concat_app. simpl. rewrite app_nil_r. unfold big.
      rewrite <- Permutation_middle. rewrite <- CP, (cp_perm _ _ _ C). apply Permutation_cons_append.
    - intros c Hc. apply in_app_iff in Hc as [Hc|[<-|[]]]. apply (cp_ne _ _ _ C); auto. discriminate.
    - intros c x y Hc Hx HA Hy. apply in_app_iff in Hc as [Hc|[<-|[]]].
      + (* an untouched block *)
        apply in_app_iff in Hy as [Hy|[<-|[]]].
        * eapply (cp_closed _ _ _ C); eauto.
        * exfalso. apply SYM in HA.
          assert (Hcr := InR _ Hc). apply In_nth_error in Hcr as (i & Hi).
          assert (Hps : In i ps).
          { apply HS. split. apply nth_error_Some. congruence. exists x. split; auto.
            unfold nodes_of. rewrite (nth_error_nth _ _ [] Hi). auto. }
          assert (ND' : NoDup (concat (without (hits res a) res) ++ flat_map (nodes_of res) ps)).
          { eapply Permutation_NoDup; eauto. }
          apply (NoDup_app_disj _ _ ND' x).
          -- apply concat_In. eauto.
          -- apply Big. exists i. split; auto. unfold nodes_of. rewrite (nth_error_nth _ _ [] Hi). auto.
      + (* the block of [a] *)
        unfold big. apply in_app_iff in Hy as [Hy|[<-|[]]]; [|left; auto]. right.
        destruct Hx as [<-|Hx].
        * apply InD in Hy. apply concat_In in Hy as (c & Hc & Hyc).
          apply In_nth_error in Hc as (i & Hi). apply Big. exists i. unfold nodes_of. rewrite (nth_error_nth _ _ [] Hi).
          split; auto. apply HS. split. apply nth_error_Some; congruence. exists y. split; auto.
          unfold nodes_of. rewrite (nth_error_nth _ _ [] Hi). auto.
        * apply Big in Hx as (i & Hi & Hx). apply Big. exists i. split; auto.
          eapply (cp_closed _ _ _ C); eauto.
    - intros c x y Hc Hx Hy. apply in_app_iff in Hc as [Hc|[<-|[]]].
      + apply Lk. eapply (cp_conn _ _ _ C); eauto.
      + assert (Center : forall z, In z big -> linked A (fun z => In z (done ++ [a])) a z).
        { intros z [<-|Hz]. apply rt_refl. apply Big in Hz as (i & Hi & Hz).
          pose proof (InH i Hi) as Hc. apply HS in Hi as (Hi & k & Hk & Hki).
          apply (rt_trans _ _ _ k); [apply rt_step|apply Lk; apply (cp_conn _ _ _ C (nodes_of res i)); auto].
          splits. exact Hk. apply in_app_iff; right; left; auto.
          apply in_app_iff; left. apply InD. apply concat_In; eauto. }
        eapply rt_trans; [|apply Center; auto]. apply linked_sym; auto.
  Qed.

  Lemma cfold_ok l : NoDup l -> components A l (fold_left cstep l []).
  Proof.
    intros ND.
    assert (G : forall rest done res, NoDup (done ++ rest) -> components A done res ->
      components A (done ++ rest) (fold_left cstep rest res)).
    { induction rest as [|a rest IH]; intros done res Hd C; simpl. rewrite app_nil_r; auto.
      replace (done ++ a :: rest) with ((done ++ [a]) ++ rest) by (rewrite <- app_assoc; auto).
      apply IH. rewrite <- app_assoc; auto. apply cstep_ok; auto.
      - apply NoDup_app_parts in Hd; tauto.
      - apply NoDup_split_mid in Hd; tauto. }
    apply (G l [] []); auto. constructor; simpl; auto; intros; contradiction.
  Qed.
End Step.

Section Compute.
  Context {N : num}.
  Implicit Types s : gst (N:=N).

  (** active connection between two nodes *)
  Definition aedge s x y : Prop := y < gsize s /\ exists c, act s x y = Some c.

  Lemma compute_clusters_ok e s nodes : env_ok e -> NoDup nodes ->
    (forall x y, x < gsize s -> aedge s x y -> aedge s y x) -> Forall (fun x => x < gsize s) nodes ->
    components (aedge s) nodes (map cl_nodes (compute_clusters e s nodes)) /\
    forall cl, In cl (compute_clusters e s nodes) -> cl_topo cl = None.
  Proof.
    intros E ND SYM LT. unfold compute_clusters. split.
    2:{ intros cl Hcl. apply in_map_iff in Hcl as (c & <- & _). reflexivity. }
    rewrite map_map. simpl. rewrite map_id.
    set (nb := fun a => if a <? gsize s then e_ord e a (keys (gsize s) (nd_act (g_node s a))) else []).
    assert (NB : forall x y, In y (nb x) <-> x < gsize s /\ aedge s x y).
    { intros x y. unfold nb. destruct (Nat.ltb_spec x (gsize s)).
      - rewrite ord_In, keys_In by auto. unfold aedge, act. tauto.
      - simpl. split; [tauto|]. lia. }
    eapply components_dom_perm; [symmetry; apply (proj1 E (gsize s))|].
    assert (LT' : Forall (fun x => x < gsize s) (e_ord e (gsize s) nodes)).
    { apply Forall_forall. intros x Hx. apply ord_In in Hx; auto. rewrite Forall_forall in LT. auto. }
    assert (ND' : NoDup (e_ord e (gsize s) nodes)) by (apply ord_NoDup; auto).
    revert LT' ND'. generalize (e_ord e (gsize s) nodes). intros l LT' ND'.
    assert (C : components (fun x y => In y (nb x)) l (fold_left (cstep nb (fun a h => e_ord e a h)) l [])).
    { apply cfold_ok; auto.
      - intros a h. apply E.
      - intros x y H. apply NB in H as [Hx Hxy]. apply NB. split; auto. apply Hxy. }
    assert (EQ : forall r res, Forall (fun x => x < gsize s) r ->
      fold_left (cluster_step e s) r res = fold_left (cstep nb (fun a h => e_ord e a h)) r res).
    { induction r as [|a r IH]; intros res F; simpl; auto. inversion F; subst.
      replace (cstep nb (fun a h => e_ord e a h) res a) with (cluster_step e s res a); auto.
      unfold cluster_step, cstep, hits, nb. replace (a <? gsize s) with true by (symmetry; apply Nat.ltb_lt; auto).
      reflexivity. }
    rewrite EQ by auto. destruct C as [C1 C2 C3 C4]. rewrite Forall_forall in LT'. constructor; auto.
    - intros c x y Hc Hx HA Hy. apply (C3 c x y); auto. apply NB. split; auto.
      apply LT'. apply (Permutation_in _ C1). apply concat_In; eauto.
    - intros c x y Hc Hx Hy. eapply linked_mono; [| |apply (C4 c); eauto]; auto.
      intros u v Hu Hv H. apply NB in H; tauto.
  Qed.
End Compute.
