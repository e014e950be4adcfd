(** Basic lemmas about the containers and primitives of Graph.v *)
From Coq Require Import String List Arith Bool Lia Permutation.
From Verif Require Import Res Num Categoric Func Special Graph.
Import ListNotations.
Open Scope nat_scope.

Lemma fupd_eq {A} (m : nat -> A) k a : fupd m k a k = a.
Proof. unfold fupd. rewrite Nat.eqb_refl. reflexivity. Qed.
Lemma fupd_ne {A} (m : nat -> A) k j a : j <> k -> fupd m k a j = m j.
Proof. intros H. unfold fupd. apply Nat.eqb_neq in H. rewrite H. reflexivity. Qed.

Lemma mem_In k l : mem k l = true <-> In k l.
Proof.
  unfold mem. rewrite existsb_exists. split.
  - intros (x & H & E). apply Nat.eqb_eq in E. subst. auto.
  - intros H. exists k. split; auto. apply Nat.eqb_refl.
Qed.
Lemma mem_false k l : mem k l = false <-> ~ In k l.
Proof. rewrite <- mem_In. destruct (mem k l); split; intros H; auto; try discriminate. exfalso; auto. Qed.

Lemma is_some_true {A} (o : option A) : is_some o = true <-> exists a, o = Some a.
Proof. destruct o; simpl; split; intros H; eauto; try discriminate. destruct H; discriminate. Qed.
Lemma is_some_false {A} (o : option A) : is_some o = false <-> o = None.
Proof. destruct o; simpl; split; intros H; auto; discriminate. Qed.

Lemma keys_In {A} n (m : nat -> option A) k : In k (keys n m) <-> k < n /\ exists a, m k = Some a.
Proof.
  unfold keys. rewrite filter_In, in_seq, is_some_true. split; intros [H1 H2]; split; auto; lia.
Qed.
Lemma keys_NoDup {A} n (m : nat -> option A) : NoDup (keys n m).
Proof. apply NoDup_filter, seq_NoDup. Qed.

Lemma perm_In {A} (l l' : list A) x : Permutation l' l -> In x l' <-> In x l.
Proof. intros P. split; apply Permutation_in; auto. symmetry; auto. Qed.
Lemma perm_NoDup {A} (l l' : list A) : Permutation l' l -> NoDup l -> NoDup l'.
Proof. intros P. apply Permutation_NoDup. symmetry; auto. Qed.

Lemma ord_In e t l k : env_ok e -> In k (e_ord e t l) <-> In k l.
Proof. intros [E _]. apply perm_In, E. Qed.
Lemma ord_NoDup e t l : env_ok e -> NoDup l -> NoDup (e_ord e t l).
Proof. intros [E _]. apply perm_NoDup, E. Qed.

Lemma env_id_ok : env_ok env_id.
Proof. split; intros; reflexivity. Qed.
Lemma env_rev_ok : env_ok env_rev.
Proof. split; intros; simpl; symmetry; apply Permutation_rev. Qed.

Lemma find_pos_some {A} (p : A -> bool) l i : find_pos p l = Some i ->
  exists x, nth_error l i = Some x /\ p x = true /\ forall j y, j < i -> nth_error l j = Some y -> p y = false.
Proof.
  revert i; induction l as [|x l IH]; simpl; intros i E. discriminate.
  destruct (p x) eqn:Ex.
  - injection E as <-. exists x. splits; auto. intros j y Hj. lia.
  - destruct (find_pos p l) as [k|] eqn:Ek; simpl in E; try discriminate. injection E as <-.
    destruct (IH k eq_refl) as (y & Hy & Hp & Hm). exists y. splits; auto.
    intros [|j] z Hj Hz; simpl in Hz. congruence. eapply Hm; eauto. lia.
Qed.
Lemma find_pos_none {A} (p : A -> bool) l : find_pos p l = None <-> forall x, In x l -> p x = false.
Proof.
  induction l as [|x l IH]; simpl. split; auto. intros _ x [].
  destruct (p x) eqn:Ex.
  - split; [discriminate|]. intros H. rewrite H in Ex by auto. discriminate.
  - destruct (find_pos p l) eqn:Ek; simpl.
    + split; [discriminate|]. intros H. assert (Q : Some n = None) by (apply IH; auto). discriminate.
    + split; auto. intros _ y [<-|Hy]; auto. apply IH; auto.
Qed.
Lemma find_pos_app_some {A} (p : A -> bool) l r i : find_pos p l = Some i -> find_pos p (l ++ r) = Some i.
Proof.
  revert i; induction l as [|x l IH]; simpl; intros i E. discriminate.
  destruct (p x); auto. destruct (find_pos p l); simpl in *; try discriminate.
  rewrite (IH n eq_refl). exact E.
Qed.
Lemma find_pos_app_none {A} (p : A -> bool) l r :
  find_pos p l = None -> find_pos p (l ++ r) = option_map (Nat.add (length l)) (find_pos p r).
Proof.
  induction l as [|x l IH]; simpl; intros E. destruct (find_pos p r); auto.
  destruct (p x); [discriminate|]. destruct (find_pos p l) eqn:Ek; [discriminate|].
  rewrite IH by auto. destruct (find_pos p r); auto.
Qed.

(** {1 Removal of positions} *)
Lemma combine_seq {A} (l : list A) (d : A) k :
  combine (seq k (length l)) l = map (fun i => (i, nth (i - k) l d)) (seq k (length l)).
Proof.
  revert k; induction l as [|x l IH]; simpl; intros k; auto. f_equal.
  - rewrite Nat.sub_diag. reflexivity.
  - rewrite IH. apply map_ext_in. intros i Hi. apply in_seq in Hi.
    destruct (i - k) eqn:E; try lia. replace (i - S k) with n by lia. reflexivity.
Qed.

Lemma filter_split_perm {A} (p : A -> bool) l :
  Permutation l (filter (fun x => negb (p x)) l ++ filter p l).
Proof.
  induction l as [|x l IH]; simpl; auto. destruct (p x); simpl.
  - rewrite <- Permutation_middle. constructor; auto.
  - constructor; auto.
Qed.

Lemma filter_map {A B} (f : A -> B) (p : B -> bool) l : filter p (map f l) = map f (filter (fun x => p (f x)) l).
Proof. induction l as [|x l IH]; simpl; auto. destruct (p (f x)); simpl; rewrite IH; auto. Qed.

Lemma without_map {A} ps (l : list A) d :
  without ps l = map (fun i => nth i l d) (filter (fun i => negb (mem i ps)) (seq 0 (length l))).
Proof.
  unfold without. rewrite (combine_seq l d 0).
  rewrite (map_ext _ (fun i => (i, nth i l d))) by (intros i; rewrite Nat.sub_0_r; auto).
  rewrite filter_map, map_map. simpl. reflexivity.
Qed.

Lemma map_nth_seq {A} (l : list A) d : map (fun i => nth i l d) (seq 0 (length l)) = l.
Proof.
  pose proof (combine_seq l d 0) as E. apply (f_equal (map snd)) in E.
  rewrite map_map in E. simpl in E.
  rewrite (map_ext (fun i => nth (i - 0) l d) (fun i => nth i l d)) in E by (intros; rewrite Nat.sub_0_r; auto).
  rewrite <- E. clear E. generalize 0. induction l; simpl; intros n; f_equal; auto.
Qed.

Lemma without_perm {A} ps (l : list A) d : NoDup ps -> (forall i, In i ps -> i < length l) ->
  Permutation l (without ps l ++ map (fun i => nth i l d) ps).
Proof.
  intros ND Hlt. rewrite (without_map ps l d). rewrite <- (map_nth_seq l d) at 1.
  rewrite <- map_app. apply Permutation_map.
  etransitivity. apply (filter_split_perm (fun i => mem i ps)).
  apply Permutation_app_head. apply NoDup_Permutation; auto.
  - apply NoDup_filter, seq_NoDup.
  - intros x. rewrite filter_In, in_seq, mem_In. split.
    + intros [_ H]; auto.
    + intros H. split; auto. split. lia. simpl. auto.
Qed.

Lemma lset_perm {A} (l : list A) i x (d : A) : i < length l -> Permutation (lset l i x) (without [i] l ++ [x]).
Proof.
  intros Hi. assert (P : Permutation l (without [i] l ++ map (fun i => nth i l d) [i])).
  { apply without_perm. repeat constructor; auto. intros j [<-|[]]; auto. }
  assert (Q : Permutation (lset l i x) (without [i] (lset l i x) ++ [x])).
  { assert (P' : Permutation (lset l i x) (without [i] (lset l i x) ++ map (fun j => nth j (lset l i x) d) [i])).
    { apply without_perm. repeat constructor; auto. rewrite length_lset. intros j [<-|[]]; auto. }
    simpl in P'. rewrite (nth_error_nth (lset l i x) i d (x := x)) in P'; auto. apply nth_error_lset_eq; auto. }
  rewrite Q. apply Permutation_app_tail. rewrite !(without_map _ _ d), length_lset.
  apply Permutation_refl'. apply map_ext_in. intros j Hj. apply filter_In in Hj as [Hj1 Hj2].
  apply in_seq in Hj1. apply negb_true_iff, mem_false in Hj2. simpl in Hj2.
  destruct (nth_error (lset l i x) j) eqn:E.
  - rewrite (nth_error_nth _ _ d E). rewrite nth_error_lset_ne in E by (intros ->; auto).
    rewrite (nth_error_nth _ _ d E). reflexivity.
  - apply nth_error_None in E. rewrite length_lset in E. lia.
Qed.

(** {1 Loops} *)
Lemma ofold_inv {S A} (f : A -> S -> out S unit) (P : list A -> S -> Prop) l s0 :
  P [] s0 ->
  (forall done x rest s, l = done ++ x :: rest -> P done s ->
     exists s', f x s = Ret tt s' /\ P (done ++ [x]) s') ->
  exists s', ofold f l s0 = Ret tt s' /\ P l s'.
Proof.
  intros H0 Hstep.
  assert (G : forall rest done s, l = done ++ rest -> P done s ->
    exists s', ofold f rest s = Ret tt s' /\ P l s').
  { induction rest as [|x rest IH]; intros done s E Hs; simpl.
    - rewrite app_nil_r in E. subst. eauto.
    - destruct (Hstep done x rest s E Hs) as (s1 & H1 & HP). rewrite H1. simpl.
      apply (IH (done ++ [x])); auto. rewrite <- app_assoc. exact E. }
  apply (G l [] s0); auto.
Qed.

Lemma ofold_app {S A} (f : A -> S -> out S unit) l1 l2 s :
  ofold f (l1 ++ l2) s = obind (ofold f l1 s) (fun _ s => ofold f l2 s).
Proof.
  revert s; induction l1 as [|x l1 IH]; simpl; intros s; auto.
  destruct (f x s); simpl; auto.
Qed.

Lemma NoDup_split_mid {A} (l1 l2 : list A) x : NoDup (l1 ++ x :: l2) -> ~ In x l1 /\ ~ In x l2.
Proof.
  intros H. apply NoDup_remove_2 in H. rewrite in_app_iff in H. tauto.
Qed.

(** {1 Primitives on the connections} *)
Section Prim.
  Context {N : num}.
  Implicit Types s : gst (N:=N).

  Definition pair_is (x y a b : nat) : bool := ((x =? a) && (y =? b)) || ((x =? b) && (y =? a)).

  Lemma pair_is_true x y a b : pair_is x y a b = true <-> (x = a /\ y = b) \/ (x = b /\ y = a).
  Proof. unfold pair_is. rewrite orb_true_iff, !andb_true_iff, !Nat.eqb_eq. tauto. Qed.
  Lemma pair_is_sym x y a b : pair_is x y a b = pair_is y x a b.
  Proof. apply eq_true_iff_eq. rewrite !pair_is_true. tauto. Qed.

  (** the parts of the state an operation on the connections does not touch *)
  Definition same_frame s s' : Prop :=
    g_vars s' = g_vars s /\ g_cl s' = g_cl s /\ g_ev s' = g_ev s /\ g_all s' = g_all s /\
    g_last s' = g_last s /\ g_iters s' = g_iters s /\ g_pool s' = g_pool s /\
    (forall k, nd_un (g_node s' k) = nd_un (g_node s k)).
  Definition same_merged s s' : Prop := forall k, nd_merged (g_node s' k) = nd_merged (g_node s k).

  Lemma same_frame_refl s : same_frame s s.
  Proof. unfold same_frame. splits; auto. Qed.
  Lemma same_frame_trans s1 s2 s3 : same_frame s1 s2 -> same_frame s2 s3 -> same_frame s1 s3.
  Proof.
    unfold same_frame. intros (A1 & A2 & A3 & A4 & A5 & A6 & A7 & A8) (B1 & B2 & B3 & B4 & B5 & B6 & B7 & B8).
    splits; congruence.
  Qed.

  Lemma set_node_get s k nd j : g_node (set_node s k nd) j = if j =? k then nd else g_node s j.
  Proof. reflexivity. Qed.

  Lemma activate_frame s a b f : same_frame s (activate s a b f) /\ same_merged s (activate s a b f).
  Proof.
    unfold same_frame, same_merged, activate, put_act, erase_dis, act. simpl. splits; auto;
    intros k; unfold fupd; repeat (simpl; match goal with |- context[?x =? ?y] => destruct (Nat.eqb_spec x y); subst end); auto.
  Qed.
  Lemma disable_frame s a b f : same_frame s (disable s a b f) /\ same_merged s (disable s a b f).
  Proof.
    unfold same_frame, same_merged, disable, put_dis, erase_act, dis. simpl. splits; auto;
    intros k; unfold fupd; repeat (simpl; match goal with |- context[?x =? ?y] => destruct (Nat.eqb_spec x y); subst end); auto.
  Qed.

  Ltac bust := repeat (simpl; match goal with |- context[?x =? ?y] => destruct (Nat.eqb_spec x y); subst end); simpl; try congruence; auto.

  Lemma put_act_act s a b f x y : act (put_act s a b f) x y =
    if (x =? a) && (y =? b) then Some (reset_conn (act s x y) (g_next s) f) else act s x y.
  Proof. unfold put_act, act. simpl. unfold fupd. bust. Qed.
  Lemma put_act_dis s a b f x y : dis (put_act s a b f) x y = dis s x y.
  Proof. unfold put_act, dis. simpl. unfold fupd. bust. Qed.
  Lemma put_dis_dis s a b f x y : dis (put_dis s a b f) x y =
    if (x =? a) && (y =? b) then Some (reset_conn (dis s x y) (g_next s) f) else dis s x y.
  Proof. unfold put_dis, dis. simpl. unfold fupd. bust. Qed.
  Lemma put_dis_act s a b f x y : act (put_dis s a b f) x y = act s x y.
  Proof. unfold put_dis, act. simpl. unfold fupd. bust. Qed.
  Lemma erase_act_act s a b x y : act (erase_act s a b) x y = if (x =? a) && (y =? b) then None else act s x y.
  Proof. unfold erase_act, act. simpl. unfold fupd. bust. Qed.
  Lemma erase_act_dis s a b x y : dis (erase_act s a b) x y = dis s x y.
  Proof. unfold erase_act, dis. simpl. unfold fupd. bust. Qed.
  Lemma erase_dis_dis s a b x y : dis (erase_dis s a b) x y = if (x =? a) && (y =? b) then None else dis s x y.
  Proof. unfold erase_dis, dis. simpl. unfold fupd. bust. Qed.
  Lemma erase_dis_act s a b x y : act (erase_dis s a b) x y = act s x y.
  Proof. unfold erase_dis, act. simpl. unfold fupd. bust. Qed.

  Lemma activate_act s a b f x y : a <> b ->
    act (activate s a b f) x y =
      if pair_is x y a b
      then Some (reset_conn (act s x y) (if x =? a then g_next s else S (g_next s)) f)
      else act s x y.
  Proof.
    intros Hab. unfold pair_is, activate. rewrite !put_act_act, !erase_dis_act. simpl. bust.
  Qed.
  Lemma activate_act_other s a b f x y : a <> b -> pair_is x y a b = false -> act (activate s a b f) x y = act s x y.
  Proof. intros Hab E. rewrite activate_act, E by auto. reflexivity. Qed.
  Lemma activate_act_pair s a b f x y : a <> b -> pair_is x y a b = true ->
    exists c, act (activate s a b f) x y = Some c /\ c_fac c = f /\ c_msg c = None.
  Proof. intros Hab E. rewrite activate_act, E by auto. eexists. split; [reflexivity|]. auto. Qed.
  Lemma activate_dis s a b f x y : a <> b ->
    dis (activate s a b f) x y = if pair_is x y a b then None else dis s x y.
  Proof.
    intros Hab. unfold pair_is, activate. rewrite !put_act_dis, !erase_dis_dis. bust.
  Qed.

  Lemma disable_dis s a b f x y : a <> b ->
    dis (disable s a b f) x y =
      if pair_is x y a b
      then Some (reset_conn (dis s x y) (if x =? a then g_next s else S (g_next s)) f)
      else dis s x y.
  Proof.
    intros Hab. unfold pair_is, disable. rewrite !put_dis_dis, !erase_act_dis. simpl. bust.
  Qed.
  Lemma disable_dis_other s a b f x y : a <> b -> pair_is x y a b = false -> dis (disable s a b f) x y = dis s x y.
  Proof. intros Hab E. rewrite disable_dis, E by auto. reflexivity. Qed.
  Lemma disable_dis_pair s a b f x y : a <> b -> pair_is x y a b = true ->
    exists c, dis (disable s a b f) x y = Some c /\ c_fac c = f /\ c_msg c = None.
  Proof. intros Hab E. rewrite disable_dis, E by auto. eexists. split; [reflexivity|]. auto. Qed.
  Lemma disable_act s a b f x y : a <> b ->
    act (disable s a b f) x y = if pair_is x y a b then None else act s x y.
  Proof.
    intros Hab. unfold pair_is, disable. rewrite !put_dis_act, !erase_act_act. bust.
  Qed.

  Lemma drop_merged_frame s a : same_frame s (drop_merged s a).
  Proof. unfold same_frame, drop_merged. simpl. splits; auto. intros k. unfold fupd. bust. Qed.
  Lemma drop_merged_act s a x y : act (drop_merged s a) x y = act s x y.
  Proof. unfold drop_merged, act. simpl. unfold fupd. bust. Qed.
  Lemma drop_merged_dis s a x y : dis (drop_merged s a) x y = dis s x y.
  Proof. unfold drop_merged, dis. simpl. unfold fupd. bust. Qed.
  Lemma drop_merged_merged s a k : nd_merged (g_node (drop_merged s a) k) = if k =? a then None else nd_merged (g_node s k).
  Proof. unfold drop_merged. simpl. unfold fupd. bust. Qed.

  Lemma set_dis_msg_spec s a b c m : dis s a b = Some c ->
    exists s', set_dis_msg s a b m = Ret tt s' /\ same_frame s s' /\ same_merged s s' /\
      (forall x y, act s' x y = act s x y) /\
      dis s' a b = Some (with_msg c (Some m)) /\
      (forall x y, (x, y) <> (a, b) -> dis s' x y = dis s x y).
  Proof.
    intros E. unfold set_dis_msg. rewrite E. eexists. split; [reflexivity|].
    unfold same_frame, same_merged, act, dis. simpl. unfold fupd. splits; auto; intros; bust.
  Qed.
End Prim.

Ltac bust := repeat (simpl; match goal with |- context[?x =? ?y] => destruct (Nat.eqb_spec x y); subst end); simpl; try congruence; auto.
