(** Facts about the model of factors. *)
From Coq Require Import List Arith Bool Lia Permutation String.
From Verif Require Import Res Num Categoric Combs Func.
Import ListNotations.
Open Scope nat_scope.
Local Notation length := List.length.

Lemma hash_loop_idx sizes c : valid_comb sizes c -> forall acc,
  hash_loop sizes c (prodn sizes) acc = Ok (acc + idx sizes c).
Proof.
  induction 1 as [|x s cs ss Hx Hc IH]; intros acc; cbn [hash_loop].
  - f_equal. simpl. lia.
  - destruct s as [|s]; [lia|].
    assert (E : prodn (S s :: ss) / S s = prodn ss).
    { change (prodn (S s :: ss)) with (S s * prodn ss).
      rewrite Nat.mul_comm. apply Nat.div_mul. lia. }
    rewrite E, IH. f_equal. simpl. lia.
Qed.

Definition sizes_of (g : group) : list nat := map vsize (g_soup g).

Lemma make_info_sizes g : i_sizes (make_info g) = sizes_of g.
Proof. reflexivity. Qed.
Lemma make_info_tot g : i_tot (make_info g) = prodn (sizes_of g).
Proof. apply sizes_prod_prodn. Qed.

Lemma hash_ok g c : valid_comb (sizes_of g) c -> hash (make_info g) c = Ok (idx (sizes_of g) c).
Proof.
  intros H. unfold hash. rewrite make_info_sizes, make_info_tot.
  rewrite hash_loop_idx; auto.
Qed.

(** a combination that is too short makes the hasher read out of bounds *)
Lemma hash_short i c : length c < length (i_sizes i) -> Forall (lt 0) (i_sizes i) -> hash i c = UB.
Proof.
  unfold hash. generalize (i_tot i) as p. generalize 0 at 2 as acc. 
  generalize (i_sizes i) as ss. intros ss. revert c.
  induction ss as [|s ss IH]; simpl; intros c acc p H Hp. lia.
  destruct c as [|x c]; auto. inversion Hp; subst. destruct s; [lia|].
  apply IH; auto. simpl in H. lia.
Qed.

Section FP.
  Context {N : num} (OK : num_ok N).
  Implicit Types f : func N.

  (** {1 Well-formed functions and their meaning} *)
  Definition wf_data (g : group) (d : fdata N) : Prop :=
    match d with
    | Sparse l => NoDup (map fst l) /\ Forall (valid_comb (sizes_of g)) (map fst l)
    | Dense v => length v = prodn (sizes_of g)
    end.

  Record wf_func (f : func N) : Prop := {
    wf_info : f_info f = make_info (f_group f);
    wf_nonempty : f_vars f <> [];
    wf_sizes : Forall (lt 0) (sizes_of (f_group f));
    wf_dat : wf_data (f_group f) (f_data f)
  }.

  Definition fsizes f : list nat := sizes_of (f_group f).

  (** the raw image of a combination *)
  Definition fimg f (c : list nat) : N :=
    match f_data f with
    | Sparse l => match assoc l c with Some x => x | None => n0 end
    | Dense v => nth (idx (fsizes f) c) v n0
    end.

  (** the value the rest of the library uses *)
  Definition fval f (c : list nat) : N := transform f (fimg f c).

  Lemma fsizes_nonempty f : wf_func f -> fsizes f <> [].
  Proof.
    intros H E. apply (wf_nonempty f H). unfold fsizes, sizes_of, f_vars in *.
    destruct (g_soup (f_group f)); auto; discriminate.
  Qed.

  Lemma fsizes_length f : length (fsizes f) = length (f_vars f).
  Proof. unfold fsizes, sizes_of, f_vars. apply map_length. Qed.

  (** {1 association lists} *)
  Lemma assoc_set_keys l c x :
    map fst (assoc_set l c x) = map fst l \/
    (~ In c (map fst l) /\ map fst (assoc_set (N:=N) l c x) = map fst l ++ [c]).
  Proof.
    induction l as [|[k y] l IH]; simpl. right; auto.
    destruct (list_eqb k c) eqn:E; simpl. left; auto.
    destruct IH as [-> | [H ->]]; auto. right. split; auto.
    intros [<-|Hin]; auto. assert (list_eqb k k = true) by (apply list_eqb_eq; auto). congruence.
  Qed.

  Lemma assoc_set_get l c x d :
    assoc (assoc_set l c x) d = if list_eqb c d then Some x else assoc (N:=N) l d.
  Proof.
    induction l as [|[k y] l IH]; simpl.
    - reflexivity.
    - destruct (list_eqb k c) eqn:E; simpl.
      + apply list_eqb_eq in E. subst k. destruct (list_eqb c d); auto.
      + destruct (list_eqb k d) eqn:E2.
        * apply list_eqb_eq in E2. subst k. destruct (list_eqb c d) eqn:E3; auto.
          apply list_eqb_eq in E3. subst. assert (list_eqb d d = true) by (apply list_eqb_eq; auto).
          congruence.
        * exact IH.
  Qed.

  Lemma assoc_In l c x : NoDup (map fst l) -> (In (c, x) l <-> assoc (N:=N) l c = Some x).
  Proof.
    induction l as [|[k y] l IH]; simpl; intros Hn.
    - split; [tauto|discriminate].
    - inversion Hn as [|? ? H1 H2]; subst. destruct (list_eqb k c) eqn:E.
      + apply list_eqb_eq in E. subst. split.
        * intros [E|E]. congruence. exfalso. apply H1. apply (in_map fst) in E. exact E.
        * intros E. left. congruence.
      + rewrite <- IH; auto. split; auto. intros [E1|E1]; auto.
        injection E1 as -> ->. assert (list_eqb c c = true) by (apply list_eqb_eq; auto). congruence.
  Qed.

  Lemma assoc_None l c : assoc (N:=N) l c = None <-> ~ In c (map fst l).
  Proof.
    induction l as [|[k y] l IH]; simpl. tauto.
    destruct (list_eqb k c) eqn:E.
    - apply list_eqb_eq in E. subst. split; [discriminate|intros H; exfalso; auto].
    - rewrite IH. split; [|tauto]. intros H [E1|E1]; auto. subst.
      assert (list_eqb c c = true) by (apply list_eqb_eq; auto). congruence.
  Qed.

  (** {1 find} *)
  Lemma f_find_ok f c : wf_func f -> valid_comb (fsizes f) c -> f_find f c = Ok (fimg f c).
  Proof.
    intros W V. unfold f_find, fimg, sparse_find. rewrite (wf_info f W).
    rewrite hash_ok by exact V. destruct (f_data f) as [l|v] eqn:E; simpl; auto.
    pose proof (wf_dat f W) as D. rewrite E in D. simpl in D.
    unfold vget. rewrite (nth_error_nth' v n0); auto.
    rewrite D. apply idx_lt; auto.
  Qed.

  Lemma f_findt_ok f c : wf_func f -> valid_comb (fsizes f) c -> f_findt f c = Ok (fval f c).
  Proof. intros. unfold f_findt. rewrite f_find_ok; auto. Qed.

  (** {1 set} *)
  Lemma nth_lset (v : list N) k j x d : k < length v ->
    nth j (lset v k x) d = if k =? j then x else nth j v d.
  Proof.
    revert k j; induction v as [|y v IH]; simpl; intros k j H. lia.
    destruct k, j; simpl; auto. rewrite IH by lia. reflexivity.
  Qed.

  Lemma to_dense_ok g l :
    NoDup (map fst l) -> Forall (valid_comb (sizes_of g)) (map fst l) ->
    exists v, to_dense (N:=N) (make_info g) l = Ok v /\ length v = prodn (sizes_of g) /\
      forall c, valid_comb (sizes_of g) c ->
        nth (idx (sizes_of g) c) v n0 = match assoc l c with Some x => x | None => n0 end.
  Proof.
    intros Hn Hv. unfold to_dense.
    assert (Hin : forall done e rest, l = done ++ e :: rest -> ~ In (fst e) (map fst done)).
    { intros done e rest ->. rewrite map_app in Hn. simpl in Hn. apply NoDup_remove_2 in Hn.
      intros H; apply Hn. apply in_or_app. auto. }
    assert (Hval : forall e, In e l -> valid_comb (sizes_of g) (fst e)).
    { intros e He. rewrite Forall_forall in Hv. apply Hv. apply in_map; auto. }
    pose (P := fun (done : list (list nat * N)) (v : list N) =>
      length v = prodn (sizes_of g) /\
      forall c, valid_comb (sizes_of g) c ->
        nth (idx (sizes_of g) c) v n0 = match assoc done c with Some x => x | None => n0 end).
    assert (A : forall (d : list (list nat * N)) e c, assoc (d ++ [e]) c =
       match assoc d c with Some x => Some x | None => if list_eqb (fst e) c then Some (snd e) else None end).
    { induction d as [|[k y] d IHd]; intros [k' y'] c; simpl. reflexivity.
      destruct (list_eqb k c); auto. apply (IHd (k', y')). }
    destruct (rfold_inv (fun values e => let* h := hash (make_info g) (fst e) in vset values h (snd e)) P l
               (repeat (n0 : N) (i_tot (make_info g)))) as (v & Hf & Hp).
    - split. rewrite repeat_length. apply make_info_tot.
      intros c Hc. simpl. apply nth_repeat.
    - intros done [k x] rest v E [HL HI]. simpl.
      assert (Vk : valid_comb (sizes_of g) k).
      { apply (Hval (k, x)). rewrite E. apply in_or_app. right; left; auto. }
      pose proof (idx_lt _ _ Vk) as Lk.
      rewrite (hash_ok g k Vk). cbn [rbind]. rewrite vset_ok by lia.
      eexists. split; [reflexivity|]. split.
      + rewrite length_lset. exact HL.
      + intros c Hc. rewrite nth_lset by lia. rewrite A. simpl.
        pose proof (Hin done (k, x) rest E) as Hk. simpl in Hk.
        destruct (Nat.eqb_spec (idx (sizes_of g) k) (idx (sizes_of g) c)) as [E1|E1].
        * apply idx_inj in E1; auto. subst c. apply assoc_None in Hk. rewrite Hk.
          assert (R : list_eqb k k = true) by (apply list_eqb_eq; auto). rewrite R. auto.
        * rewrite HI by auto. destruct (assoc done c); auto.
          destruct (list_eqb k c) eqn:E2; auto. apply list_eqb_eq in E2. congruence.
    - exists v. destruct Hp. auto.
  Qed.

  Lemma f_set_ok f c x : wf_func f -> valid_comb (fsizes f) c ->
    exists f', f_set f c x = Ok f' /\ wf_func f' /\ f_group f' = f_group f /\
      f_exp f' = f_exp f /\
      forall d, valid_comb (fsizes f) d -> fimg f' d = if list_eqb c d then x else fimg f d.
  Proof.
    intros W V. unfold f_set. rewrite (wf_info f W). rewrite (hash_ok _ c V).
    pose proof (wf_dat f W) as D. destruct (f_data f) as [l|v] eqn:E; simpl in D.
    - destruct D as [Dn Dv]. cbn [rbind].
      assert (Dn' : NoDup (map fst (assoc_set l c x)) /\
                    Forall (valid_comb (sizes_of (f_group f))) (map fst (assoc_set l c x))).
      { destruct (assoc_set_keys l c x) as [-> | [Hc ->]]; auto. split.
        - apply Permutation_NoDup with (l := c :: map fst l).
          + apply Permutation_cons_append.
          + constructor; auto.
        - apply Forall_app. split; auto. }
      destruct Dn' as [Dn' Dv'].
      destruct (i_critical (make_info (f_group f)) <=? length (assoc_set l c x)) eqn:EC.
      + destruct (to_dense_ok (f_group f) _ Dn' Dv') as (v & -> & HL & HI). cbn [rbind].
        eexists; split; [reflexivity|]. split; [|split; [|split]]; auto.
        * destruct W. split; simpl; auto.
        * intros d Hd. unfold fimg, with_data; simpl. unfold fsizes. simpl.
          rewrite HI by auto. rewrite E, assoc_set_get. destruct (list_eqb c d); auto.
      + eexists; split; [reflexivity|]. split; [|split; [|split]]; auto.
        * destruct W. split; simpl; auto.
        * intros d Hd. unfold fimg, with_data; simpl. rewrite E, assoc_set_get.
          destruct (list_eqb c d); auto.
    - cbn [rbind]. pose proof (idx_lt _ _ V) as Lc. change (sizes_of (f_group f)) with (fsizes f) in *.
      rewrite vset_ok by lia. cbn [rbind].
      eexists; split; [reflexivity|]. split; [|split; [|split]]; auto.
      + destruct W. split; simpl; auto. rewrite length_lset. exact D.
      + intros d Hd. unfold fimg, with_data; simpl. rewrite E.
        change (fsizes (mkFunc (f_group f) (f_info f) (Dense (lset v (idx (fsizes f) c) x)) (f_exp f))) with (fsizes f).
        rewrite nth_lset by lia.
        destruct (Nat.eqb_spec (idx (fsizes f) c) (idx (fsizes f) d)) as [E1|E1].
        * apply idx_inj in E1; auto. subst.
          assert (R : list_eqb d d = true) by (apply list_eqb_eq; auto). rewrite R. auto.
        * destruct (list_eqb c d) eqn:E2; auto. apply list_eqb_eq in E2. congruence.
  Qed.

  (** {1 constructors} *)
  Lemma func_ctor_wf g : g_soup g <> [] -> Forall (lt 0) (sizes_of g) -> wf_func (func_ctor (N:=N) g).
  Proof. intros H1 H2. split; simpl; auto. split; constructor. Qed.
  Lemma func_ctor_img g c : fimg (func_ctor (N:=N) g) c = n0.
  Proof. reflexivity. Qed.

  Lemma f_clear_wf f : wf_func f -> wf_func (f_clear f).
  Proof. intros []. split; simpl; auto. split; constructor. Qed.
  Lemma f_clear_img f c : fimg (f_clear f) c = n0.
  Proof. reflexivity. Qed.

  (** {1 enumeration} *)
  Lemma dense_walk_ok (g : N -> N) sizes v : length v = prodn sizes ->
    dense_walk g (all_combs sizes) v =
    Ok (map (fun c => (c, g (nth (idx sizes c) v n0))) (all_combs sizes)).
  Proof.
    intros HL.
    assert (G : forall cs k v', map (idx sizes) cs = seq k (length cs) -> length v' = length cs ->
       (forall j, nth j v' n0 = nth (k + j) v n0) ->
       dense_walk g cs v' = Ok (map (fun c => (c, g (nth (idx sizes c) v n0))) cs)).
    { induction cs as [|c cs IH]; intros k v' HM HL' HN; simpl; auto.
      destruct v' as [|x v']; [discriminate|]. simpl in HM. injection HM as H1 H2.
      rewrite (IH (S k) v').
      - simpl. do 3 f_equal. specialize (HN 0). simpl in HN. rewrite HN. rewrite H1. f_equal. f_equal. lia.
      - exact H2.
      - simpl in HL'. lia.
      - intros j. specialize (HN (S j)). simpl in HN. rewrite HN. f_equal. lia. }
    apply (G _ 0); auto.
    - rewrite map_idx_all_combs, all_combs_length. reflexivity.
    - rewrite all_combs_length. exact HL.
  Qed.

  Lemma f_each_ok t f : wf_func f ->
    f_each t f = Ok (map (fun c => (c, tr t f (fimg f c))) (all_combs (fsizes f))).
  Proof.
    intros W. unfold f_each. rewrite (wf_info f W), make_info_sizes.
    change (sizes_of (f_group f)) with (fsizes f).
    rewrite range_all_ok by (apply fsizes_nonempty || apply wf_sizes; auto). cbn [rbind].
    pose proof (wf_dat f W) as D. unfold fimg. destruct (f_data f) as [l|v] eqn:E; simpl in D.
    - apply rmap_ok. intros c Hc. apply all_combs_In in Hc. unfold sparse_find.
      rewrite hash_ok by exact Hc. reflexivity.
    - apply dense_walk_ok. exact D.
  Qed.

  Lemma dense_walk_nonnull_filter (g : N -> N) : forall cs v r,
    dense_walk (fun x => x) cs v = Ok r ->
    dense_walk_nonnull g cs v = Ok (map (fun e => (fst e, g (snd e))) (filter (fun e => negb (neqb (snd e) n0)) r)).
  Proof.
    induction cs as [|c cs IH]; intros v r H; simpl in *.
    - injection H as <-. reflexivity.
    - destruct v as [|x v]; [discriminate|]. apply rbind_ok in H as (r' & H1 & H2).
      injection H2 as <-. rewrite (IH _ _ H1). simpl. destruct (neqb x n0); reflexivity.
  Qed.

  (** the non null enumeration, up to order *)
  Lemma f_each_nonnull_spec t f : wf_func f ->
    exists r, f_each_nonnull t f = Ok r /\ NoDup (map fst r) /\
      (forall c x, In (c, x) r -> valid_comb (fsizes f) c /\ x = tr t f (fimg f c)) /\
      (forall c, valid_comb (fsizes f) c -> fimg f c <> n0 -> In (c, tr t f (fimg f c)) r).
  Proof.
    intros W. unfold f_each_nonnull. pose proof (wf_dat f W) as D.
    destruct (f_data f) as [l|v] eqn:E; simpl in D.
    - destruct D as [Dn Dv]. eexists; split; [reflexivity|]. split; [|split].
      + rewrite map_map. simpl. exact Dn.
      + intros c x H. apply in_map_iff in H as ([k y] & E1 & Hin). simpl in E1.
        injection E1 as -> <-. split.
        * rewrite Forall_forall in Dv. apply Dv. apply (in_map fst) in Hin. exact Hin.
        * unfold fimg. rewrite E. apply assoc_In in Hin; auto. rewrite Hin. reflexivity.
      + intros c Hc Hne. unfold fimg in *. rewrite E in *. destruct (assoc l c) as [y|] eqn:EA.
        * apply assoc_In in EA; auto. apply in_map_iff. exists (c, y). auto.
        * congruence.
    - rewrite (wf_info f W), make_info_sizes. change (sizes_of (f_group f)) with (fsizes f).
      rewrite range_all_ok by (apply fsizes_nonempty || apply wf_sizes; auto). cbn [rbind].
      rewrite (dense_walk_nonnull_filter _ _ _ _ (dense_walk_ok (fun x => x) (fsizes f) v D)).
      eexists; split; [reflexivity|]. split; [|split].
      + rewrite map_map. simpl.
        assert (Q : forall cs, NoDup cs -> NoDup (map fst (filter (fun e : list nat * N => negb (neqb (snd e) n0))
             (map (fun c => (c, nth (idx (fsizes f) c) v n0)) cs)))).
        { induction cs as [|c cs IH]; simpl; intros Hn. constructor. inversion Hn; subst.
          destruct (negb (neqb (nth (idx (fsizes f) c) v n0) n0)); simpl; auto. constructor; auto.
          intros Hin. apply in_map_iff in Hin as ([k y] & E1 & Hin). simpl in E1. subst.
          apply filter_In in Hin as [Hin _]. apply in_map_iff in Hin as (c' & E1 & Hin). congruence. }
        apply Q. apply all_combs_NoDup.
      + intros c x H. apply in_map_iff in H as ([k y] & E1 & Hin). simpl in E1. injection E1 as -> <-.
        apply filter_In in Hin as [Hin _]. apply in_map_iff in Hin as (c' & E1 & Hin).
        injection E1 as -> <-. apply all_combs_In in Hin. split; auto.
        unfold fimg. rewrite E. reflexivity.
      + intros c Hc Hne. apply in_map_iff. exists (c, fimg f c). split; auto.
        apply filter_In. split.
        * apply in_map_iff. exists c. unfold fimg. rewrite E. split; auto. apply all_combs_In; auto.
        * simpl. apply negb_true_iff. apply neqb_false; auto.
  Qed.

  (** {1 folding [f_set]} *)
  Lemma fold_set_ok (es : list (list nat * N)) : forall f, wf_func f ->
    Forall (valid_comb (fsizes f)) (map fst es) ->
    exists f', rfold (fun f e => f_set f (fst e) (snd e)) es f = Ok f' /\ wf_func f' /\
      f_group f' = f_group f /\ f_exp f' = f_exp f /\
      forall d, valid_comb (fsizes f) d ->
        fimg f' d = match assoc (rev es) d with Some x => x | None => fimg f d end.
  Proof.
    induction es as [|[k x] es IH]; intros f W V; simpl.
    - exists f. split; auto.
    - inversion V as [|? ? V1 V2]; subst. simpl in V1.
      destruct (f_set_ok f k x W V1) as (f1 & H1 & W1 & G1 & X1 & I1). rewrite H1. cbn [rbind].
      destruct (IH f1 W1) as (f2 & H2 & W2 & G2 & X2 & I2).
      { unfold fsizes. rewrite G1. exact V2. }
      exists f2. split; auto. split; auto. split; [congruence|]. split; [congruence|].
      intros d Hd. rewrite I2 by (unfold fsizes; rewrite G1; exact Hd).
      assert (A : forall (d : list (list nat * N)) e c, assoc (d ++ [e]) c =
       match assoc d c with Some x => Some x | None => if list_eqb (fst e) c then Some (snd e) else None end).
      { clear. induction d as [|[k y] d IHd]; intros [k' y'] c; simpl. reflexivity.
        destruct (list_eqb k c); auto. apply (IHd (k', y')). }
      rewrite A. destruct (assoc (rev es) d); auto. rewrite I1 by auto. simpl.
      destruct (list_eqb k d); auto.
  Qed.
End FP.
