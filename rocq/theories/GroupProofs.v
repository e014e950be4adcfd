(** Facts about the model of groups of variables. *)
From Coq Require Import String List Arith Bool Lia Permutation.
From Verif Require Import Res Categoric.
Import ListNotations.
Open Scope nat_scope.

(** what makes two variables the same for the containers: name and size *)
Definition vkey (v : var) : string * nat := (vname v, vsize v).

Lemma var_veqb_key a b : var_veqb a b = true <-> vkey a = vkey b.
Proof.
  unfold var_veqb, vkey. rewrite andb_true_iff, Nat.eqb_eq, String.eqb_eq.
  split; [intros []; congruence|intros H; injection H; auto].
Qed.

Lemma var_peqb_eq a b : var_peqb a b = true <-> a = b.
Proof.
  unfold var_peqb. rewrite andb_true_iff, Nat.eqb_eq, var_veqb_key. unfold vkey.
  destruct a, b; simpl. split.
  - intros [-> H]. injection H as -> ->. reflexivity.
  - intros H. injection H as -> -> ->. auto.
Qed.

Lemma var_eq_dec (a b : var) : {a = b} + {a <> b}.
Proof.
  destruct (var_peqb a b) eqn:E.
  - left. apply var_peqb_eq; auto.
  - right. intros H. apply var_peqb_eq in H. congruence.
Qed.

Lemma vset_mem_spec s v : vset_mem s v = true <-> In (vkey v) (map vkey s).
Proof.
  unfold vset_mem. rewrite existsb_exists. split.
  - intros (x & Hx & E). apply var_veqb_key in E. rewrite E. apply in_map; auto.
  - intros H. apply in_map_iff in H as (x & E & Hx). exists x. split; auto.
    apply var_veqb_key. auto.
Qed.

Lemma vset_mem_false s v : vset_mem s v = false <-> ~ In (vkey v) (map vkey s).
Proof.
  rewrite <- vset_mem_spec. destruct (vset_mem s v); split; intros H; congruence.
Qed.

(** [to_vars_set] keeps the first occurrence of each key *)
Lemma fold_vset_add soup : forall s,
  NoDup (map vkey s) ->
  NoDup (map vkey (fold_left vset_add soup s)) /\
  length (fold_left vset_add soup s) <= length s + length soup /\
  (length (fold_left vset_add soup s) = length s + length soup ->
     fold_left vset_add soup s = s ++ soup).
Proof.
  induction soup as [|v soup IH]; simpl; intros s Hn.
  - split; auto. split. lia. rewrite app_nil_r. auto.
  - destruct (vset_mem s v) eqn:E.
    + assert (EA : vset_add s v = s) by (unfold vset_add; rewrite E; auto). rewrite EA.
      destruct (IH s Hn) as (A & B & C). split; auto. split. lia.
      intros H. exfalso. lia.
    + assert (EA : vset_add s v = s ++ [v]) by (unfold vset_add; rewrite E; auto). rewrite EA.
      assert (Hn' : NoDup (map vkey (s ++ [v]))).
      { apply vset_mem_false in E. rewrite map_app. simpl.
        apply Permutation_NoDup with (l := vkey v :: map vkey s).
        apply Permutation_cons_append. constructor; auto. }
      destruct (IH (s ++ [v]) Hn') as (A & B & C).
      rewrite app_length in *. simpl in *. split; auto. split. lia.
      intros H. rewrite C by lia. rewrite <- app_assoc. reflexivity.
Qed.

Lemma fold_vset_add_nodup soup : forall s,
  NoDup (map vkey (s ++ soup)) -> fold_left vset_add soup s = s ++ soup.
Proof.
  induction soup as [|v soup IH]; simpl; intros s Hn.
  - rewrite app_nil_r. auto.
  - assert (E : vset_mem s v = false).
    { apply vset_mem_false. rewrite map_app in Hn. simpl in Hn. apply NoDup_remove_2 in Hn.
      intros H; apply Hn; apply in_or_app; auto. }
    assert (EA : vset_add s v = s ++ [v]) by (unfold vset_add; rewrite E; auto). rewrite EA.
    rewrite IH. rewrite <- app_assoc. reflexivity.
    rewrite <- app_assoc. exact Hn.
Qed.

Lemma to_vars_set_nodup soup : NoDup (map vkey soup) -> to_vars_set soup = soup.
Proof. intros. unfold to_vars_set. apply (fold_vset_add_nodup soup []). auto. Qed.

Lemma to_vars_set_len soup : length (to_vars_set soup) <= length soup.
Proof. destruct (fold_vset_add soup [] ltac:(constructor)) as (_ & B & _). exact B. Qed.

Lemma to_vars_set_eq soup : length soup = length (to_vars_set soup) -> NoDup (map vkey soup).
Proof.
  intros H. destruct (fold_vset_add soup [] ltac:(constructor)) as (A & _ & C).
  unfold to_vars_set in H. rewrite C in A; auto.
Qed.

Lemma to_vars_set_keys soup : forall k, In k (map vkey (to_vars_set soup)) <-> In k (map vkey soup).
Proof.
  unfold to_vars_set.
  assert (G : forall soup s k, In k (map vkey (fold_left vset_add soup s)) <-> In k (map vkey s) \/ In k (map vkey soup)).
  { clear. induction soup as [|v soup IH]; simpl; intros s k. tauto.
    rewrite IH. unfold vset_add. destruct (vset_mem s v) eqn:E.
    - apply vset_mem_spec in E. split; [tauto|]. intros [H|[H|H]]; auto. subst. auto.
    - rewrite map_app, in_app_iff. simpl. tauto. }
  intros k. rewrite G. simpl. tauto.
Qed.

(** invariant of every group: distinct keys, and the set holds the soup *)
Definition wf_group (g : group) : Prop :=
  NoDup (map vkey (g_soup g)) /\ Permutation (g_set g) (g_soup g).

Lemma group_ctor_ok soup g : group_ctor soup = Ok g <->
  soup <> [] /\ NoDup (map vkey soup) /\ g = mkGroup soup soup.
Proof.
  unfold group_ctor. split.
  - destruct (Nat.eqb_spec (length soup) 0) as [E|E]; [discriminate|].
    destruct (Nat.eqb_spec (length soup) (length (to_vars_set soup))) as [E1|E1]; [|discriminate].
    apply to_vars_set_eq in E1. intros H. injection H as <-. split.
    intros ->. apply E; auto. split; auto. rewrite to_vars_set_nodup; auto.
  - intros (H1 & H2 & ->). destruct (Nat.eqb_spec (length soup) 0) as [E|E].
    + destruct soup; simpl in *; congruence.
    + rewrite to_vars_set_nodup by auto. rewrite Nat.eqb_refl. reflexivity.
Qed.

Lemma group_ctor_total soup : (exists g, group_ctor soup = Ok g) \/ group_ctor soup = Throw.
Proof.
  unfold group_ctor. destruct (length soup =? 0); auto.
  destruct (length soup =? length (to_vars_set soup)); eauto.
Qed.

Lemma group_ctor_wf soup g : group_ctor soup = Ok g -> wf_group g.
Proof. intros H. apply group_ctor_ok in H as (_ & H & ->). split; simpl; auto. Qed.

Lemma group_single_wf v : wf_group (group_single v).
Proof. split; simpl; auto. constructor; auto. constructor. Qed.

Lemma group_add_spec g v : wf_group g ->
  (In (vkey v) (map vkey (g_soup g)) -> group_add g v = Throw) /\
  (~ In (vkey v) (map vkey (g_soup g)) ->
     group_add g v = Ok (mkGroup (g_soup g ++ [v]) (g_set g ++ [v]))).
Proof.
  intros [Hn Hp]. unfold group_add, vset_add.
  assert (Q : In (vkey v) (map vkey (g_set g)) <-> In (vkey v) (map vkey (g_soup g))).
  { split; apply Permutation_in; apply Permutation_map; auto. symmetry; auto. }
  destruct (vset_mem (g_set g) v) eqn:E.
  - apply vset_mem_spec in E. split; intros H; auto. exfalso; apply H; apply Q; auto.
  - apply vset_mem_false in E. split; intros H; auto. exfalso; apply E; apply Q; auto.
Qed.

Lemma vkey_eq_dec (a b : string * nat) : {a = b} + {a <> b}.
Proof. decide equality; [apply Nat.eq_dec|apply string_dec]. Qed.

Lemma group_add_wf g v g' : wf_group g -> group_add g v = Ok g' -> wf_group g'.
Proof.
  intros W H. destruct (group_add_spec g v W) as [A B].
  destruct (in_dec vkey_eq_dec (vkey v) (map vkey (g_soup g))) as [E|E].
  - rewrite A in H by auto. discriminate.
  - rewrite B in H by auto. injection H as <-. destruct W as [Hn Hp]. split; simpl.
    + rewrite map_app. simpl. apply Permutation_NoDup with (l := vkey v :: map vkey (g_soup g)).
      apply Permutation_cons_append. constructor; auto.
    + apply Permutation_app_tail. exact Hp.
Qed.

(** {1 replaceVariables} *)
Lemma same_sizes_loop_ok new old : forall k,
  length new + k <= length old ->
  (same_sizes_loop new old k = Ok tt /\ map vsize new = map vsize (firstn (length new) (skipn k old))) \/
  (same_sizes_loop new old k = Throw /\ map vsize new <> map vsize (firstn (length new) (skipn k old))).
Proof.
  induction new as [|v new IH]; intros k H; simpl in *.
  - left; auto.
  - assert (exists o, nth_error old k = Some o) as (o & Ho).
    { destruct (nth_error old k) eqn:E; eauto. apply nth_error_None in E. lia. }
    unfold vget. rewrite Ho. cbn [rbind].
    assert (SK : skipn k old = o :: skipn (S k) old).
    { clear - Ho. revert k Ho. induction old as [|x old IHo]; intros [|k] H; try discriminate.
      - injection H as ->. reflexivity.
      - simpl in *. apply IHo; auto. }
    rewrite SK. cbn [map firstn].
    destruct (Nat.eqb_spec (vsize v) (vsize o)) as [E|E].
    + destruct (IH (S k) ltac:(lia)) as [[A B]|[A B]].
      * left. split; auto. congruence.
      * right. split; auto. congruence.
    + right. split; auto. congruence.
Qed.

Lemma same_sizes_loop_Ok_len new old : forall k,
  k <= length old -> same_sizes_loop new old k = Ok tt -> length new + k <= length old.
Proof.
  induction new as [|v new IH]; intros k Hk H; simpl in *. lia.
  unfold vget in H. destruct (nth_error old k) as [o|] eqn:E; [|discriminate].
  cbn [rbind] in H. destruct (vsize v =? vsize o); [|discriminate].
  assert (k < length old) by (apply nth_error_Some; congruence).
  apply IH in H; lia.
Qed.

Lemma group_replace_ok g new g' : group_replace g new = Ok g' <->
  NoDup (map vkey new) /\ map vsize new = map vsize (g_soup g) /\ g' = mkGroup new new.
Proof.
  unfold group_replace. split.
  - destruct (Nat.eqb_spec (length (to_vars_set new)) (length (g_soup g))) as [E|E]; [|discriminate].
    intros H. apply rbind_ok in H as ([] & H1 & H2). injection H2 as <-.
    pose proof (same_sizes_loop_Ok_len _ _ 0 ltac:(lia) H1) as HL.
    pose proof (to_vars_set_len new) as HL2.
    assert (EQ : length new = length (to_vars_set new)) by lia.
    pose proof (to_vars_set_eq _ EQ) as Hn.
    rewrite to_vars_set_nodup in * by auto.
    destruct (same_sizes_loop_ok new (g_soup g) 0 ltac:(lia)) as [[_ B]|[A _]]; [|congruence].
    split; auto. split; auto. rewrite B. simpl. rewrite E. rewrite firstn_all. reflexivity.
  - intros (Hn & Hs & ->). rewrite to_vars_set_nodup by auto.
    assert (HL : length new = length (g_soup g)).
    { rewrite <- (map_length vsize new), Hs. apply map_length. }
    rewrite HL, Nat.eqb_refl.
    destruct (same_sizes_loop_ok new (g_soup g) 0 ltac:(lia)) as [[A B]|[A B]].
    + rewrite A. reflexivity.
    + exfalso. apply B. simpl. rewrite HL, firstn_all. exact Hs.
Qed.

Lemma group_replace_safe g new : length new <= length (g_soup g) ->
  group_replace g new = Throw \/ exists g', group_replace g new = Ok g'.
Proof.
  intros HL. unfold group_replace.
  destruct (Nat.eqb_spec (length (to_vars_set new)) (length (g_soup g))) as [E|E]; auto.
  destruct (same_sizes_loop_ok new (g_soup g) 0 ltac:(lia)) as [[A B]|[A B]]; rewrite A; simpl; eauto.
Qed.

Lemma group_replace_safe_nodup g new : NoDup (map vkey new) ->
  group_replace g new = Throw \/ exists g', group_replace g new = Ok g'.
Proof.
  intros Hn. unfold group_replace. rewrite to_vars_set_nodup by auto.
  destruct (Nat.eqb_spec (length new) (length (g_soup g))) as [E|E]; auto.
  destruct (same_sizes_loop_ok new (g_soup g) 0 ltac:(lia)) as [[A B]|[A B]]; rewrite A; simpl; eauto.
Qed.

(** {1 set difference} *)
Lemma vset_minus_In to_remove : forall subject v,
  In v (vset_minus subject to_remove) <-> In v subject /\ ~ In (vkey v) (map vkey to_remove).
Proof.
  unfold vset_minus. induction to_remove as [|r to_remove IH]; simpl; intros subject v. tauto.
  rewrite IH. destruct (vset_mem subject r) eqn:E.
  - unfold vset_remove. rewrite filter_In, negb_true_iff.
    assert (Q : var_veqb r v = false <-> vkey r <> vkey v).
    { rewrite <- var_veqb_key. destruct (var_veqb r v); split; intros; congruence. }
    rewrite Q. tauto.
  - apply vset_mem_false in E. split; [|tauto]. intros [H1 H2]. split; auto.
    intros [H|H]; auto. apply E. rewrite H. apply in_map; auto.
Qed.

Lemma vset_minus_NoDup to_remove : forall subject,
  NoDup (map vkey subject) -> NoDup (map vkey (vset_minus subject to_remove)).
Proof.
  unfold vset_minus. induction to_remove as [|r to_remove IH]; simpl; intros subject Hn; auto.
  apply IH. destruct (vset_mem subject r); auto. unfold vset_remove.
  clear - Hn. induction subject as [|x s IHs]; simpl; auto. inversion Hn; subst.
  destruct (negb (var_veqb r x)); simpl; auto. constructor; auto.
  intros H. apply H1. apply in_map_iff in H as (y & E & Hy). apply filter_In in Hy as [Hy _].
  rewrite <- E. apply in_map; auto.
Qed.

(** {1 equality of sets of variables} *)
Lemma NoDup_vkey_inj s a b : NoDup (map vkey s) -> In a s -> In b s -> vkey a = vkey b -> a = b.
Proof.
  induction s as [|x s IH]; simpl; intros Hn Ha Hb E. contradiction.
  inversion Hn; subst. destruct Ha as [->|Ha], Hb as [->|Hb]; auto.
  - exfalso. apply H1. rewrite E. apply in_map; auto.
  - exfalso. apply H1. rewrite <- E. apply in_map; auto.
Qed.

Lemma NoDup_vkey_NoDup s : NoDup (map vkey s) -> NoDup s.
Proof. apply NoDup_map_inv. Qed.

Lemma vset_eqb_perm a b : NoDup (map vkey a) -> NoDup (map vkey b) ->
  (vset_eqb a b = true <-> Permutation a b).
Proof.
  intros Na Nb. unfold vset_eqb. rewrite andb_true_iff, Nat.eqb_eq, forallb_forall. split.
  - intros [HL HF]. apply NoDup_Permutation_bis.
    + apply NoDup_vkey_NoDup; auto.
    + lia.
    + intros x Hx. specialize (HF x Hx). destruct (find (var_veqb x) b) as [y|] eqn:E; [|discriminate].
      apply find_some in E as [E _]. apply var_peqb_eq in HF. subst. auto.
  - intros P. split. apply Permutation_length; auto. intros x Hx.
    assert (Hb : In x b) by (eapply Permutation_in; eauto).
    destruct (find (var_veqb x) b) as [y|] eqn:E.
    + apply find_some in E as [E1 E2]. apply var_veqb_key in E2. apply var_peqb_eq.
      eapply NoDup_vkey_inj; eauto.
    + exfalso. eapply find_none in E; eauto. assert (var_veqb x x = true) by (apply var_veqb_key; auto).
      congruence.
Qed.
