(** Facts about factor constructors, finders, exponential factors. *)
From Coq Require Import String List Arith Bool Lia Permutation.
From Verif Require Import Res Num Categoric Combs Func FuncProofs GroupProofs.
Import ListNotations.
Open Scope nat_scope.

(** an assignment of values to variables *)
Definition assignment := var -> nat.
(** the assignment respects the sizes of these variables *)
Definition proper (a : assignment) (vs : list var) : Prop :=
  forall v, In v vs -> a v < vsize v.

Lemma proper_valid a vs : proper a vs -> valid_comb (map vsize vs) (map a vs).
Proof.
  induction vs as [|v vs IH]; simpl; intros H; constructor.
  - apply H; left; auto.
  - apply IH. intros x Hx. apply H; right; auto.
Qed.

(** every combination of distinct variables comes from an assignment *)
Fixpoint lookup_comb (vs : list var) (c : list nat) (v : var) : nat :=
  match vs, c with
  | x :: vs', k :: c' => if var_peqb x v then k else lookup_comb vs' c' v
  | _, _ => 0
  end.
Lemma lookup_comb_map vs : forall c, NoDup vs -> length c = length vs -> map (lookup_comb vs c) vs = c.
Proof.
  induction vs as [|x vs IH]; intros [|k c] Hn HL; simpl in *; try discriminate; auto.
  inversion Hn; subst. assert (R : var_peqb x x = true) by (apply var_peqb_eq; auto). rewrite R. f_equal.
  transitivity (map (lookup_comb vs c) vs); [|apply IH; auto].
  apply map_ext_in. intros v Hv. destruct (var_peqb x v) eqn:E; auto.
  apply var_peqb_eq in E. subst. contradiction.
Qed.
Lemma lookup_comb_proper vs c : NoDup vs -> valid_comb (map vsize vs) c ->
  map (lookup_comb vs c) vs = c /\ proper (lookup_comb vs c) vs.
Proof.
  intros Hn V. pose proof (valid_length _ _ V) as HL. rewrite map_length in HL.
  pose proof (lookup_comb_map vs c Hn HL) as HM. split; auto.
  intros v Hv. apply In_nth_error in Hv as (k & Hk). apply valid_nth in V as [_ V].
  apply (V k).
  - pose proof (map_nth_error (lookup_comb vs c) k vs Hk) as H. rewrite HM in H. exact H.
  - apply map_nth_error; auto.
Qed.
Lemma valid_comb_assignment vs c : NoDup vs -> valid_comb (map vsize vs) c ->
  exists a, proper a vs /\ c = map a vs.
Proof.
  intros Hn V. destruct (lookup_comb_proper vs c Hn V) as [H1 H2]. eauto.
Qed.

(** {1 finders} *)
Lemma find_var_some bigger v k : find_var bigger v = Some k -> nth_error bigger k = Some v.
Proof.
  revert k; induction bigger as [|x bigger IH]; simpl; intros k H; [discriminate|].
  destruct (var_peqb x v) eqn:E.
  - injection H as <-. apply var_peqb_eq in E. subst. reflexivity.
  - destruct (find_var bigger v) as [j|]; [|discriminate]. injection H as <-. simpl. auto.
Qed.
Lemma find_var_in bigger v : In v bigger <-> exists k, find_var bigger v = Some k.
Proof.
  split.
  - induction bigger as [|x bigger IH]; simpl; intros H. contradiction.
    destruct (var_peqb x v) eqn:E; eauto. destruct H as [->|H].
    + assert (var_peqb v v = true) by (apply var_peqb_eq; auto). congruence.
    + destruct (IH H) as (k & ->). simpl. eauto.
  - intros (k & H). apply find_var_some in H. eapply nth_error_In; eauto.
Qed.

Lemma rmap_throw {A B} (f : A -> res B) l :
  (forall x, In x l -> f x = Throw \/ exists y, f x = Ok y) ->
  (exists x, In x l /\ f x = Throw) -> rmap f l = Throw.
Proof.
  induction l as [|x l IH]; simpl; intros Hall (y & Hy & E). contradiction.
  destruct (Hall x (or_introl eq_refl)) as [->| [z Hz]]; auto. rewrite Hz. cbn [rbind].
  destruct Hy as [->|Hy]; [congruence|]. rewrite IH; eauto.
Qed.

(** same name and size but different instances *)
Definition conflict (vs : list var) : Prop :=
  exists v w, In v vs /\ In w vs /\ vkey v = vkey w /\ v <> w.

Lemma classic_conflict vs : conflict vs \/ ~ conflict vs.
Proof.
  destruct (existsb (fun v => existsb (fun w => var_veqb v w && negb (var_peqb v w)) vs) vs) eqn:E.
  - left. apply existsb_exists in E as (v & Hv & E). apply existsb_exists in E as (w & Hw & E).
    apply andb_true_iff in E as [E1 E2]. exists v, w. split; auto. split; auto. split.
    apply var_veqb_key; auto. intros ->. assert (var_peqb w w = true) by (apply var_peqb_eq; auto).
    rewrite H in E2. discriminate.
  - right. intros (v & w & Hv & Hw & E1 & E2).
    assert (X : existsb (fun v => existsb (fun w => var_veqb v w && negb (var_peqb v w)) vs) vs = true); [|congruence].
    apply existsb_exists. exists v. split; auto. apply existsb_exists. exists w. split; auto.
    apply andb_true_iff. split. apply var_veqb_key; auto. apply negb_true_iff.
    destruct (var_peqb v w) eqn:E3; auto. apply var_peqb_eq in E3. contradiction.
Qed.

Lemma Permutation_dec (a b : list var) : Permutation a b \/ ~ Permutation a b.
Proof.
  revert b; induction a as [|x a IH]; intros b.
  - destruct b. left; auto. right. intros H. apply Permutation_nil in H. discriminate.
  - destruct (in_dec var_eq_dec x b) as [Hin|Hin].
    + apply in_split in Hin as (l1 & l2 & ->). destruct (IH (l1 ++ l2)) as [H|H].
      * left. apply Permutation_cons_app. exact H.
      * right. intros P. apply H. eapply Permutation_cons_app_inv; eauto.
    + right. intros P. apply Hin. eapply Permutation_in; eauto. left; auto.
Qed.

Section FaP.
  Context {N : num} (OK : num_ok N).
  Implicit Types f : func N.
  Add Field NField2 : (ok_field N OK).

  Definition wf_factor f : Prop := wf_func f /\ wf_group (f_group f).

  Lemma make_finder_ok f bigger :
    length (f_vars f) <= length bigger -> incl (f_vars f) bigger ->
    exists fd, make_finder f bigger = Ok fd /\ fd_func fd = f /\
      forall (a : assignment), extract_smaller fd (map a bigger) = Ok (map a (f_vars f)).
  Proof.
    intros HL HI. unfold make_finder, get_indices.
    destruct (Nat.ltb_spec (length bigger) (length (f_vars f))); [lia|].
    pose (g := fun v => match find_var bigger v with Some k => k | None => 0 end).
    rewrite (rmap_ok _ g).
    2:{ intros v Hv. apply HI in Hv. apply find_var_in in Hv as (k & Hk). unfold g. rewrite Hk. reflexivity. }
    cbn [rbind]. eexists; split; [reflexivity|]. split; auto.
    intros a. unfold extract_smaller. cbn [fd_idx].
    generalize (f_vars f) HI. intros vs. induction vs as [|v vs IH]; simpl; intros HI2; auto.
    assert (Hv : In v bigger) by (apply HI2; left; auto).
    apply find_var_in in Hv as (k & Hk). unfold g at 1. rewrite Hk.
    unfold vget at 1. rewrite (map_nth_error a k bigger (find_var_some _ _ _ Hk)). cbn [rbind].
    rewrite IH; auto. intros x Hx. apply HI2; right; auto.
  Qed.

  Lemma make_finder_throw f bigger :
    length bigger < length (f_vars f) \/ ~ incl (f_vars f) bigger -> make_finder f bigger = Throw.
  Proof.
    intros H. unfold make_finder, get_indices.
    destruct (Nat.ltb_spec (length bigger) (length (f_vars f))); auto.
    destruct H as [H|H]; [lia|].
    rewrite rmap_throw; auto.
    - intros v _. destruct (find_var bigger v); eauto.
    - assert (D : exists v, In v (f_vars f) /\ ~ In v bigger).
      { clear - H. generalize (f_vars f) H. intros vs. induction vs as [|v vs IH]; intros HN.
        - exfalso. apply HN. intros x [].
        - destruct (in_dec var_eq_dec v bigger).
          + destruct IH as (w & Hw & Hb).
            * intros HI. apply HN. intros x [<-|Hx]; auto.
            * exists w. split; auto. right; auto.
          + exists v. split; auto. left; auto. }
      destruct D as (v & Hv & Hb). exists v. split; auto.
      destruct (find_var bigger v) eqn:E; auto. exfalso. apply Hb. apply find_var_in. eauto.
  Qed.

  Lemma fd_findt_ok f bigger fd a :
    wf_func f -> make_finder f bigger = Ok fd -> proper a (f_vars f) ->
    fd_findt fd (map a bigger) = Ok (fval f (map a (f_vars f))).
  Proof.
    intros W H P.
    assert (C : length (f_vars f) <= length bigger /\ incl (f_vars f) bigger).
    { destruct (le_lt_dec (length (f_vars f)) (length bigger)) as [L|L].
      2:{ rewrite make_finder_throw in H by auto. discriminate. }
      split; auto. intros v Hv. destruct (in_dec var_eq_dec v bigger); auto. exfalso.
      rewrite make_finder_throw in H; [discriminate|]. right. intros HI. auto. }
    destruct C as [HL HI]. destruct (make_finder_ok f bigger HL HI) as (fd' & H' & E & X).
    rewrite H in H'. injection H' as <-. unfold fd_findt. rewrite X. cbn [rbind]. rewrite E.
    apply f_findt_ok; auto. apply proper_valid; auto.
  Qed.

  Lemma fd_find_ok f bigger fd a :
    wf_func f -> make_finder f bigger = Ok fd -> proper a (f_vars f) ->
    fd_find fd (map a bigger) = Ok (fimg f (map a (f_vars f))).
  Proof.
    intros W H P.
    assert (C : length (f_vars f) <= length bigger /\ incl (f_vars f) bigger).
    { destruct (le_lt_dec (length (f_vars f)) (length bigger)) as [L|L].
      2:{ rewrite make_finder_throw in H by auto. discriminate. }
      split; auto. intros v Hv. destruct (in_dec var_eq_dec v bigger); auto. exfalso.
      rewrite make_finder_throw in H; [discriminate|]. right. intros HI. auto. }
    destruct C as [HL HI]. destruct (make_finder_ok f bigger HL HI) as (fd' & H' & E & X).
    rewrite H in H'. injection H' as <-. unfold fd_find. rewrite X. cbn [rbind]. rewrite E.
    apply f_find_ok; auto. apply proper_valid; auto.
  Qed.

  (** {1 copies and clones} *)
  Lemma factor_copy_ok f : wf_func f -> wf_func (factor_copy f) /\
    f_group (factor_copy f) = f_group f /\ f_exp (factor_copy f) = None /\
    forall c, fimg (factor_copy f) c = fimg f c.
  Proof. intros W. destruct W. split; [split; simpl; auto|]. auto. Qed.

  Lemma assoc_map_combs (h : list nat -> N) l c :
    In c l -> assoc (map (fun c => (c, h c)) l) c = Some (h c).
  Proof.
    induction l as [|x l IH]; simpl; intros H. contradiction.
    destruct (list_eqb x c) eqn:E. apply list_eqb_eq in E. subst; auto.
    destruct H as [->|H]; auto. assert (list_eqb c c = true) by (apply list_eqb_eq; auto). congruence.
  Qed.

  Lemma factor_clone_transformed_ok f : wf_func f ->
    exists f', factor_clone_transformed f = Ok f' /\ wf_func f' /\ f_group f' = f_group f /\
      f_exp f' = None /\ forall c, valid_comb (fsizes f) c -> fimg f' c = fval f c.
  Proof.
    intros W. unfold factor_clone_transformed. rewrite f_each_ok by auto. cbn [rbind].
    destruct (fold_set_ok (map (fun c => (c, tr true f (fimg f c))) (all_combs (fsizes f)))
                (func_ctor (f_group f))) as (f' & H & W' & G & X & I).
    - destruct W. apply func_ctor_wf; auto.
    - rewrite map_map. simpl. rewrite map_id. apply Forall_forall. intros c Hc.
      apply all_combs_In in Hc. exact Hc.
    - exists f'. split; [exact H|]. split; auto. split; auto. split; auto.
      intros c Hc. rewrite I by exact Hc. rewrite <- map_rev.
      rewrite (assoc_map_combs (fun c => tr true f (fimg f c))); auto.
      apply -> in_rev. apply all_combs_In; auto.
  Qed.

  (** {1 correlation} *)
  Definition all_equal (c : list nat) : Prop := forall x y, In x c -> In y c -> x = y.

  Lemma all_equal_repeat c n : length c = n -> 0 < n ->
    (all_equal c <-> c = repeat (hd 0 c) n).
  Proof.
    intros HL Hn. split.
    - intros H. destruct c as [|x c]; [simpl in HL; lia|]. cbn [hd].
      rewrite <- HL. assert (F : Forall (eq x) (x :: c)).
      { apply Forall_forall. intros y Hy. apply H; auto. left; auto. }
      clear - F. induction F as [|y l Hy F IH]; simpl; auto. subst. f_equal. auto.
    - intros E x y Hx Hy. rewrite E in Hx, Hy. apply repeat_spec in Hx. apply repeat_spec in Hy. congruence.
  Qed.

  Lemma check_all_same_size_ok vs : vs <> [] ->
    (check_all_same_size vs = Ok tt /\ (forall v w, In v vs -> In w vs -> vsize v = vsize w)) \/
    (check_all_same_size vs = Throw /\ ~ (forall v w, In v vs -> In w vs -> vsize v = vsize w)).
  Proof.
    intros H. unfold check_all_same_size. destruct vs as [|v vs]; [congruence|].
    destruct (forallb (fun x => vsize x =? vsize v) (v :: vs)) eqn:E.
    - left. split; auto. rewrite forallb_forall in E. intros a b Ha Hb.
      apply E in Ha. apply E in Hb. apply Nat.eqb_eq in Ha, Hb. congruence.
    - right. split; auto. intros HA. assert (forallb (fun x => vsize x =? vsize v) (v :: vs) = true); [|congruence].
      apply forallb_forall. intros x Hx. apply Nat.eqb_eq. apply HA; auto. left; auto.
  Qed.

  Lemma same_size_repeat vs (s : nat) : (forall v, In v vs -> vsize v = s) -> map vsize vs = repeat s (length vs).
  Proof.
    induction vs as [|v vs IH]; simpl; intros H; auto. rewrite H by auto. rewrite IH; auto.
  Qed.

  Lemma valid_repeat s k n : k < s -> valid_comb (repeat s n) (repeat k n).
  Proof. induction n; simpl; constructor; auto. apply IHn; auto. Qed.

  Definition correlable (g : group) : Prop :=
    2 <= length (g_soup g) /\ forall v w, In v (g_soup g) -> In w (g_soup g) -> vsize v = vsize w.

  Lemma repeat_inj_hd (k j n : nat) : 0 < n -> repeat k n = repeat j n -> k = j.
  Proof. destruct n; simpl; intros H E; [lia|]. congruence. Qed.

  Lemma assoc_app (l : list (list nat * N)) e c : assoc (l ++ [e]) c =
       match assoc l c with Some x => Some x | None => if list_eqb (fst e) c then Some (snd e) else None end.
  Proof.
    destruct e as [k' y']. induction l as [|[k y] d IHd]; simpl. reflexivity.
    destruct (list_eqb k c); auto.
  Qed.

  Lemma factor_correlated_spec g : g_soup g <> [] -> Forall (lt 0) (sizes_of g) ->
    (correlable g /\ exists f, factor_correlated (N:=N) g = Ok f /\ wf_func f /\ f_group f = g /\ f_exp f = None /\
       forall c, valid_comb (sizes_of g) c ->
         (all_equal c -> fimg f c = n1) /\ (~ all_equal c -> fimg f c = n0)) \/
    (~ correlable g /\ factor_correlated (N:=N) g = Throw).
  Proof.
    intros Hne Hpos. unfold factor_correlated, correlable.
    destruct (check_all_same_size_ok _ Hne) as [[E HS]|[E HS]]; rewrite E; cbn [rbind].
    2:{ right. tauto. }
    destruct (g_soup g) as [|v0 vs] eqn:EG; [congruence|].
    destruct (Nat.eqb_spec 1 (length (v0 :: vs))) as [E1|E1].
    { right. split; auto. intros [H _]. lia. }
    left. split. split; auto. simpl in *. lia.
    unfold vget. cbn [nth_error rbind].
    set (n := length (v0 :: vs)) in *. assert (Hn : 2 <= n) by (unfold n in *; simpl in *; lia).
    assert (SZ : sizes_of g = repeat (vsize v0) n).
    { unfold sizes_of. rewrite EG. apply same_size_repeat. intros v Hv. apply HS; auto. left; auto. }
    clearbody n.
    pose (P := fun (done : list nat) (l : list (list nat * N)) =>
      map fst l = map (fun k => repeat k n) done /\
      (forall k, In k done -> assoc l (repeat k n) = Some n1) /\
      (forall c, (forall k, In k done -> c <> repeat k n) -> assoc l c = None)).
    destruct (rfold_inv (fun l k => sparse_emplace (N:=N) (f_info (func_ctor (N:=N) g)) l (repeat k n) n1) P
                (seq 0 (vsize v0)) []) as (l & Hl & H1 & H2 & H3).
    - split; auto. split; auto. intros k [].
    - intros done k rest l Es (P1 & P2 & P3).
      assert (Hk : In k (seq 0 (vsize v0))) by (rewrite Es; apply in_or_app; right; left; auto).
      apply in_seq in Hk.
      assert (Hnk : ~ In k done).
      { intros Hin. pose proof (seq_NoDup (vsize v0) 0) as ND. rewrite Es in ND.
        apply NoDup_remove_2 in ND. apply ND. apply in_or_app; auto. }
      unfold sparse_emplace, sparse_find. cbn [f_info func_ctor].
      rewrite hash_ok by (rewrite SZ; apply valid_repeat; lia). cbn [rbind].
      rewrite P3.
      2:{ intros j Hj Ej. apply repeat_inj_hd in Ej; [|lia]. subst. auto. }
      eexists; split; [reflexivity|]. split; [|split].
      + rewrite !map_app, P1. reflexivity.
      + intros j Hj. rewrite assoc_app. apply in_app_or in Hj as [Hj|[<-|[]]].
        * rewrite P2; auto.
        * simpl. rewrite P3.
          2:{ intros j Hj Ej. apply repeat_inj_hd in Ej; [|lia]. subst. auto. }
          assert (R : list_eqb (repeat k n) (repeat k n) = true) by (apply list_eqb_eq; auto). rewrite R. auto.
      + intros c Hc. rewrite assoc_app, P3.
        2:{ intros j Hj. apply Hc. apply in_or_app; auto. }
        simpl. destruct (list_eqb (repeat k n) c) eqn:R; auto. apply list_eqb_eq in R.
        exfalso. apply (Hc k); auto. apply in_or_app. right; left; auto.
    - rewrite Hl. cbn [rbind]. eexists; split; [reflexivity|].
      split; [|split; [|split]]; auto.
      + split; simpl; auto.
        * unfold f_vars; simpl. congruence.
        * rewrite H1. split.
          -- assert (Q : forall l : list nat, NoDup l -> NoDup (map (fun k => repeat k n) l)).
             { induction l0 as [|x l0 IHl]; simpl; intros Hnd. constructor. inversion Hnd; subst. constructor; auto.
               intros Hin. apply in_map_iff in Hin as (y & Ey & Hy). apply repeat_inj_hd in Ey; [|lia]. congruence. }
             apply Q. apply seq_NoDup.
          -- apply Forall_forall. intros c Hc. apply in_map_iff in Hc as (k & <- & Hk).
             apply in_seq in Hk. rewrite SZ. apply valid_repeat. lia.
      + intros c Hc. rewrite SZ in Hc. pose proof (valid_length _ _ Hc) as HL. rewrite repeat_length in HL.
        unfold fimg; simpl. split; intros Hq.
        * apply all_equal_repeat with (n := n) in Hq; auto; [|lia]. rewrite Hq, H2; auto.
          apply in_seq. split; [lia|]. simpl. destruct c as [|x c]; [simpl in HL; lia|].
          destruct n as [|n']; [lia|]. simpl in Hc. inversion Hc; subst. simpl. assumption.
        * rewrite H3; auto. intros k Hk Ec. apply Hq. subst c. intros x y Hx Hy.
          apply repeat_spec in Hx, Hy. congruence.
  Qed.

  Lemma factor_anticorrelated_spec g : g_soup g <> [] -> Forall (lt 0) (sizes_of g) ->
    (correlable g /\ exists f, factor_anticorrelated (N:=N) g = Ok f /\ wf_func f /\ f_group f = g /\ f_exp f = None /\
       forall c, valid_comb (sizes_of g) c ->
         (all_equal c -> fimg f c = n0) /\ (~ all_equal c -> fimg f c = n1)) \/
    (~ correlable g /\ factor_anticorrelated (N:=N) g = Throw).
  Proof.
    intros Hne Hpos. unfold factor_anticorrelated, correlable.
    destruct (g_soup g) as [|v0 vs] eqn:EG; [congruence|]. rewrite <- EG in *.
    destruct (Nat.eqb_spec 1 (length (g_soup g))) as [E1|E1].
    { right. split; auto. intros [H _]. lia. }
    destruct (check_all_same_size_ok _ Hne) as [[E HS]|[E HS]]; rewrite E; cbn [rbind].
    2:{ right. tauto. }
    left. split. split; auto. rewrite EG in *; simpl in *; lia.
    rewrite EG in *. unfold vget. cbn [nth_error rbind].
    set (n := length (v0 :: vs)) in *. assert (Hn : 2 <= n) by (unfold n in *; simpl in *; lia).
    assert (SZ : sizes_of g = repeat (vsize v0) n).
    { unfold sizes_of. rewrite EG. apply same_size_repeat. intros v Hv. apply HS; auto. left; auto. }
    clearbody n.
    pose (P := fun (done : list nat) (v : list N) =>
      length v = prodn (sizes_of g) /\
      (forall k, In k done -> nth (idx (sizes_of g) (repeat k n)) v n0 = n0) /\
      (forall c, valid_comb (sizes_of g) c -> (forall k, In k done -> c <> repeat k n) ->
          nth (idx (sizes_of g) c) v n0 = n1)).
    cbn [f_info func_ctor].
    destruct (rfold_inv (fun v k => let* h := hash (make_info g) (repeat k n) in vset v h (n0 : N)) P
                (seq 0 (vsize v0)) (repeat (n1 : N) (i_tot (make_info g)))) as (v & Hl & H1 & H2 & H3).
    - split. rewrite repeat_length. apply make_info_tot. split. intros k [].
      intros c Hc _. rewrite make_info_tot. rewrite nth_indep with (d' := n1).
      apply nth_repeat. rewrite repeat_length. apply idx_lt; auto.
    - intros done k rest v Es (P1 & P2 & P3).
      assert (Hk : In k (seq 0 (vsize v0))) by (rewrite Es; apply in_or_app; right; left; auto).
      apply in_seq in Hk.
      assert (Vk : valid_comb (sizes_of g) (repeat k n)) by (rewrite SZ; apply valid_repeat; lia).
      pose proof (idx_lt _ _ Vk) as Lk.
      rewrite hash_ok by exact Vk. cbn [rbind]. rewrite vset_ok by lia.
      eexists; split; [reflexivity|]. split; [|split].
      + rewrite length_lset. exact P1.
      + intros j Hj. rewrite nth_lset by lia.
        destruct (Nat.eqb_spec (idx (sizes_of g) (repeat k n)) (idx (sizes_of g) (repeat j n))); auto.
        apply in_app_or in Hj as [Hj|[<-|[]]]; auto. congruence.
      + intros c Hc Hq. rewrite nth_lset by lia.
        destruct (Nat.eqb_spec (idx (sizes_of g) (repeat k n)) (idx (sizes_of g) c)) as [Ei|Ei].
        * apply idx_inj in Ei; auto. exfalso. apply (Hq k); auto. apply in_or_app; right; left; auto.
        * apply P3; auto. intros j Hj. apply Hq. apply in_or_app; auto.
    - rewrite Hl. cbn [rbind]. eexists; split; [reflexivity|].
      split; [|split; [|split]]; auto.
      + split; simpl; auto. unfold f_vars; simpl. congruence.
      + intros c Hc. unfold fimg; simpl. unfold fsizes; simpl. split; intros Hq.
        * pose proof Hc as Hc'. rewrite SZ in Hc. pose proof (valid_length _ _ Hc) as HL. rewrite repeat_length in HL.
          apply all_equal_repeat with (n := n) in Hq; auto; [|lia]. rewrite Hq, H2; auto.
          apply in_seq. split; [lia|]. simpl. destruct c as [|x c]; [simpl in HL; lia|].
          destruct n as [|n']; [lia|]. simpl in Hc. inversion Hc; subst. simpl. assumption.
        * apply H3; auto. intros k Hk Ec. apply Hq. subst c. intros x y Hx Hy.
          apply repeat_spec in Hx, Hy. congruence.
  Qed.

  (** {1 merge} *)
  Lemma soup_eqb_eq a b : soup_eqb a b = true <-> a = b.
  Proof.
    revert b; induction a as [|x a IH]; destruct b as [|y b]; simpl; split; intros H; try discriminate; auto.
    - apply andb_true_iff in H as [H1 H2]. apply var_peqb_eq in H1. apply IH in H2. congruence.
    - injection H as -> ->. apply andb_true_iff. split. apply var_peqb_eq; auto. apply IH; auto.
  Qed.

  Lemma gather_fold vs : forall s, NoDup (map vkey s) ->
    (rfold gather_step vs s = Throw /\ conflict (s ++ vs)) \/
    (exists s', rfold gather_step vs s = Ok s' /\ NoDup (map vkey s') /\
       (forall v, In v s' <-> In v s \/ In v vs) /\ ~ conflict (s ++ vs)).
  Proof.
    induction vs as [|v vs IH]; intros s Hn; simpl.
    - right. exists s. split; auto. split; auto. split. tauto.
      rewrite app_nil_r. intros (a & b & Ha & Hb & E & Hne). apply Hne.
      eapply NoDup_vkey_inj; eauto.
    - unfold gather_step at 1 3. destruct (find (var_veqb v) s) as [y|] eqn:E.
      + apply find_some in E as [Hy Ey]. apply var_veqb_key in Ey.
        destruct (var_peqb y v) eqn:EP.
        * apply var_peqb_eq in EP. subst y. cbn [rbind].
          assert (Q : forall x, In x (s ++ v :: vs) <-> In x (s ++ vs)).
          { intros x. rewrite !in_app_iff. simpl. split; [|tauto]. intros [H|[<-|H]]; auto. }
          destruct (IH s Hn) as [[H C]|(s' & H & Hn' & HI & C)].
          -- left. split; auto. destruct C as (a & b & Ha & Hb & C). exists a, b.
             rewrite !Q. auto.
          -- right. exists s'. split; auto. split; auto. split.
             ++ intros x. rewrite HI. split; [tauto|]. intros [Hx|[<-|Hx]]; auto.
             ++ intros (a & b & Ha & Hb & Cc). apply C. exists a, b. rewrite <- !Q. auto.
        * left. split; auto. exists y, v. rewrite !in_app_iff. simpl. split; auto. split; auto.
          split; auto. intros ->. assert (var_peqb v v = true) by (apply var_peqb_eq; auto). congruence.
      + cbn [rbind].
        assert (Hk : ~ In (vkey v) (map vkey s)).
        { intros Hin. apply in_map_iff in Hin as (x & Ex & Hx). eapply find_none in E; eauto.
          assert (var_veqb v x = true) by (apply var_veqb_key; auto). congruence. }
        assert (Hn' : NoDup (map vkey (s ++ [v]))).
        { rewrite map_app. simpl. apply Permutation_NoDup with (l := vkey v :: map vkey s).
          apply Permutation_cons_append. constructor; auto. }
        destruct (IH (s ++ [v]) Hn') as [[H C]|(s' & H & Hn2 & HI & C)]; rewrite <- app_assoc in C; simpl in C.
        * left. auto.
        * right. exists s'. split; auto. split; auto. split; auto.
          intros x. rewrite HI, in_app_iff. simpl. tauto.
  Qed.

  Lemma prod_until_zero_ok (gs : list (list nat -> res N)) (hs : list N) c : forall val,
    Forall2 (fun g h => g c = Ok h) gs hs ->
    prod_until_zero gs c val = Ok (val * prodL (fun x => x) hs)%num.
  Proof.
    revert hs. induction gs as [|g gs IH]; intros hs val H; inversion H; subst; simpl.
    - f_equal. ring.
    - destruct (neqb val n0) eqn:E.
      + apply (ok_eqb N OK) in E. subst. f_equal. ring.
      + rewrite H2. cbn [rbind]. rewrite (IH l'); auto. f_equal. ring.
  Qed.

  Lemma prodL_filter_split {A} (p : A -> bool) (h : A -> N) l :
    prodL h l = (prodL h (filter p l) * prodL h (filter (fun x => negb (p x)) l))%num.
  Proof.
    induction l as [|x l IH]; simpl. ring. rewrite IH. destruct (p x); simpl; ring.
  Qed.

  (** set of the non null products *)
  Lemma fold_set_cond (h : list nat -> N) (stepf : func N -> list nat -> res (func N)) (g : group) cs :
    (forall r c, In c cs -> stepf r c = if neqb (h c) n0 then Ok r else f_set r c (h c)) ->
    Forall (valid_comb (sizes_of g)) cs -> NoDup cs ->
    forall f, wf_func f -> f_group f = g ->
    exists f', rfold stepf cs f = Ok f' /\ wf_func f' /\ f_group f' = g /\ f_exp f' = f_exp f /\
      (forall d, In d cs -> valid_comb (sizes_of g) d -> fimg f d = n0 -> fimg f' d = h d) /\
      (forall d, ~ In d cs -> valid_comb (sizes_of g) d -> fimg f' d = fimg f d).
  Proof.
    induction cs as [|c cs IH]; intros Hst Hv Hnd f W G; simpl.
    - exists f. split; auto. split; auto. split; auto. split; auto. split; auto. intros d [].
    - inversion Hv; subst. inversion Hnd; subst.
      rewrite Hst by (left; auto). destruct (neqb (h c) n0) eqn:E.
      + cbn [rbind]. destruct (IH (fun r c Hc => Hst r c (or_intror Hc)) H2 H4 f W eq_refl) as (f' & A & B & C & D & E1 & F).
        exists f'. split; auto. split; auto. split; auto. split; auto. split.
        * intros d [<-|Hd] V Z; auto. rewrite F by auto. rewrite Z. symmetry. apply (ok_eqb N OK). auto.
        * intros d Hd V. apply F; auto.
      + destruct (f_set_ok f c (h c) W H1) as (f1 & A1 & W1 & G1 & X1 & I1). rewrite A1. cbn [rbind].
        destruct (IH (fun r c Hc => Hst r c (or_intror Hc)) H2 H4 f1 W1 G1) as (f' & A & B & C & D & E1 & F).
        exists f'. split; auto. split; auto. split; auto. split; [congruence|].
        assert (R : forall x, list_eqb x x = true) by (intros; apply list_eqb_eq; auto).
        split.
        * intros d [<-|Hd] V Z.
          -- rewrite F by auto. rewrite I1 by auto. rewrite R. auto.
          -- apply E1; auto. rewrite I1 by auto. destruct (list_eqb c d) eqn:Ecd; auto.
             apply list_eqb_eq in Ecd. subst. contradiction.
        * intros d Hd V. rewrite F by auto. rewrite I1 by auto. destruct (list_eqb c d) eqn:Ecd; auto.
          apply list_eqb_eq in Ecd. subst. exfalso; apply Hd; left; auto.
  Qed.

  Lemma factor_merge_gen ord fs :
    (forall l, Permutation (ord l) l) ->
    fs <> [] -> Forall (fun f => wf_func f /\ NoDup (map vkey (f_vars f))) fs -> ~ conflict (flat_map f_vars fs) ->
    exists f, factor_merge ord fs = Ok f /\ wf_factor f /\ f_exp f = None /\
      (forall v, In v (f_vars f) <-> exists g, In g fs /\ In v (f_vars g)) /\
      forall a, proper a (f_vars f) ->
        fimg f (map a (f_vars f)) = prodL (fun g => fval g (map a (f_vars g))) fs.
  Proof.
    intros Hord Hne Hwf Hnc. unfold factor_merge, gather_variables.
    destruct (gather_fold (flat_map f_vars fs) [] ltac:(constructor)) as [[_ C]|(s & Hs & Hn & HI & _)].
    { simpl in C. contradiction. }
    rewrite Hs. cbn [rbind].
    assert (Hn' : NoDup (map vkey (ord s))).
    { apply Permutation_NoDup with (l := map vkey s); auto. apply Permutation_map. symmetry; auto. }
    assert (Hin : forall v, In v (ord s) <-> exists g, In g fs /\ In v (f_vars g)).
    { intros v. split.
      - intros H. apply Permutation_in with (l' := s) in H; auto. apply HI in H as [[]|H].
        apply in_flat_map in H as (g & H1 & H2). eauto.
      - intros (g & H1 & H2). apply Permutation_in with (l := s). symmetry; auto. apply HI. right.
        apply in_flat_map. eauto. }
    assert (Hne' : ord s <> []).
    { destruct fs as [|f0 fs0]; [congruence|]. inversion Hwf; subst. intros E.
      pose proof (wf_nonempty f0 (proj1 H1)) as HX. destruct (f_vars f0) as [|v0 vs0] eqn:E0; [congruence|].
      assert (In v0 (ord s)). { apply Hin. exists f0. split. left; auto. rewrite E0. left; auto. }
      rewrite E in H. inversion H. }
    assert (Hg : group_ctor (ord s) = Ok (mkGroup (ord s) (ord s))).
    { apply group_ctor_ok. auto. }
    rewrite Hg. cbn [rbind]. destruct fs as [|f0 fs0]; [congruence|].
    remember (f0 :: fs0) as fs eqn:Efs. clear Efs f0 fs0 Hne.
    cbn [g_soup].
    assert (Hpos : Forall (lt 0) (map vsize (ord s))).
    { apply Forall_forall. intros x Hx. apply in_map_iff in Hx as (v & <- & Hv).
      apply Hin in Hv as (g & Hg1 & Hg2). rewrite Forall_forall in Hwf. pose proof (wf_sizes g (proj1 (Hwf g Hg1))) as HP.
      rewrite Forall_forall in HP. apply HP. unfold sizes_of. apply in_map; auto. }
    set (same := filter (fun f => soup_eqb (f_vars f) (ord s)) fs).
    set (oth := filter (fun f => negb (soup_eqb (f_vars f) (ord s))) fs).
    assert (Hinc : forall g, In g fs -> incl (f_vars g) (ord s) ).
    { intros g Hgin v Hv. apply Hin. eauto. }
    (* finders *)
    destruct (rmap_exists (fun f => make_finder f (ord s)) oth) as (fds & EF & FF).
    { intros g Hgo. unfold oth in Hgo. apply filter_In in Hgo as [Hgo _].
      destruct (make_finder_ok g (ord s)) as (fd & Hfd & _); eauto.
      apply NoDup_incl_length; auto. rewrite Forall_forall in Hwf.
      destruct (Hwf g Hgo) as [_ ND]. apply NoDup_vkey_NoDup. exact ND. }
    rewrite EF. cbn [rbind].
    rewrite range_all_ok; auto.
    2:{ destruct (ord s); simpl; congruence. }
    cbn [rbind].
    pose (lk := fun c v => lookup_comb (ord s) c v).
    assert (HND : NoDup (ord s)) by (apply NoDup_vkey_NoDup; auto).
    pose (h := fun c => prodL (fun g => fval g (map (lk c) (f_vars g))) fs).
    assert (Hstep : forall c, In c (all_combs (map vsize (ord s))) ->
       exists v1, prod_until_zero (map f_findt same) c n1 = Ok v1 /\
                  prod_until_zero (map fd_findt fds) c v1 = Ok (h c)).
    { intros c Hc. apply all_combs_In in Hc.
      destruct (lookup_comb_proper (ord s) c HND Hc) as [EC HP]. fold (lk c) in EC, HP.
      assert (HPg : forall g, In g fs -> proper (lk c) (f_vars g)).
      { intros g Hgin v Hv. apply HP. apply (Hinc g); auto. }
      exists (n1 * prodL (fun x => x) (map (fun g => fval g (map (lk c) (f_vars g))) same))%num. split.
      - apply prod_until_zero_ok.
        assert (Hsame : forall g, In g same -> In g fs /\ f_vars g = ord s).
        { intros g Hgs. apply filter_In in Hgs as [H1 H2]. apply soup_eqb_eq in H2. auto. }
        induction same as [|g same' IHs]; simpl; constructor.
        + destruct (Hsame g (or_introl eq_refl)) as [H1 H2].
          assert (EC2 : map (lk c) (f_vars g) = c) by (rewrite H2; exact EC).
          rewrite EC2. apply f_findt_ok.
          * rewrite Forall_forall in Hwf. apply (Hwf g H1).
          * rewrite <- EC2. apply proper_valid. apply HPg; auto.
        + apply IHs. intros g' Hg'. apply Hsame; right; auto.
      - rewrite (prod_until_zero_ok _ (map (fun g => fval g (map (lk c) (f_vars g))) oth)).
        + f_equal. unfold h. rewrite (prodL_filter_split (fun f => soup_eqb (f_vars f) (ord s)) _ fs).
          fold same oth. rewrite !prodL_map. ring.
        + assert (Hoth : forall g, In g oth -> In g fs) by (intros g Hgo; apply filter_In in Hgo; tauto).
          clear - FF Hoth Hwf HPg EC. induction FF as [|g fd oth' fds' Hg FF IH]; simpl; constructor.
          * pose proof (fd_findt_ok g (ord s) fd (lk c)) as Q. change (map (lk c) (ord s)) with (map (lookup_comb (ord s) c) (ord s)) in Q. rewrite EC in Q.
            apply Q; auto.
            -- rewrite Forall_forall in Hwf. apply (Hwf g). apply Hoth; left; auto.
            -- apply HPg. apply Hoth; left; auto.
          * apply IH. intros g' Hg'. apply Hoth; right; auto. }
    set (G := mkGroup (ord s) (ord s)).
    destruct (fold_set_cond h (fun r c =>
                 let* v1 := prod_until_zero (map f_findt same) c n1 in
                 let* v2 := prod_until_zero (map fd_findt fds) c v1 in
                 if neqb v2 n0 then Ok r else f_set r c v2) G (all_combs (map vsize (ord s))))
      with (f := func_ctor (N:=N) G) as (f & Hf & Wf & Gf & Xf & If & _).
    - intros r c Hc. destruct (Hstep c Hc) as (v1 & H1 & H2). rewrite H1. cbn [rbind]. rewrite H2. reflexivity.
    - apply Forall_forall. intros c Hc. apply all_combs_In; auto.
    - apply all_combs_NoDup.
    - apply func_ctor_wf; auto.
    - reflexivity.
    - exists f. split; [exact Hf|]. split.
      { split; auto. rewrite Gf. split; simpl; auto. }
      split; [exact Xf|].
      assert (EV : f_vars f = ord s) by (unfold f_vars; rewrite Gf; reflexivity).
      split. { intros v. rewrite EV. apply Hin. }
      intros a Pa. rewrite EV in *.
      assert (Va : valid_comb (map vsize (ord s)) (map a (ord s))) by (apply proper_valid; auto).
      rewrite If; auto.
      2:{ apply all_combs_In; auto. }
      unfold h. apply prodL_ext. intros g Hgin. f_equal. apply map_ext_in. intros v Hv.
      assert (Hvs : In v (ord s)) by (apply (Hinc g); auto).
      unfold lk. pose proof (lookup_comb_map (ord s) (map a (ord s)) HND (map_length _ _)) as HM.
      apply In_nth_error in Hvs as (k & Hk).
      pose proof (map_nth_error (lookup_comb (ord s) (map a (ord s))) k (ord s) Hk) as H1.
      pose proof (map_nth_error a k (ord s) Hk) as H2. rewrite HM in H1. congruence.
  Qed.

  Lemma factor_merge_ok ord fs :
    (forall l, Permutation (ord l) l) ->
    fs <> [] -> Forall wf_factor fs -> ~ conflict (flat_map f_vars fs) ->
    exists f, factor_merge ord fs = Ok f /\ wf_factor f /\ f_exp f = None /\
      (forall v, In v (f_vars f) <-> exists g, In g fs /\ In v (f_vars g)) /\
      forall a, proper a (f_vars f) ->
        fimg f (map a (f_vars f)) = prodL (fun g => fval g (map a (f_vars g))) fs.
  Proof.
    intros Hord Hne Hwf Hnc. apply factor_merge_gen; auto. apply Forall_forall. intros f If. rewrite Forall_forall in Hwf. destruct (Hwf f If) as [W [ND _]]. auto.
  Qed.

  Lemma factor_merge_throw ord (fs : list (func N)) : conflict (flat_map f_vars fs) -> factor_merge ord fs = Throw.
  Proof.
    intros C. unfold factor_merge, gather_variables.
    destruct (gather_fold (flat_map f_vars fs) [] ltac:(constructor)) as [[H _]|(s & _ & _ & _ & C')].
    - rewrite H. reflexivity.
    - simpl in C'. contradiction.
  Qed.

  (** {2 without the laws of the numbers} *)
  Lemma prod_until_zero_total (gs : list (list nat -> res N)) c : Forall (fun g => exists h, g c = Ok h) gs ->
    forall val, exists v, prod_until_zero gs c val = Ok v.
  Proof.
    induction 1 as [|g gs (h & E) _ IH]; intros val; simpl. eauto. destruct (neqb val n0). eauto. rewrite E. cbn [rbind]. apply IH.
  Qed.
  Lemma rfold_keeps {A} (stepf : func N -> A -> res (func N)) (g : group) cs :
    (forall r c, In c cs -> wf_func r -> f_group r = g -> f_exp r = None -> exists r', stepf r c = Ok r' /\ wf_func r' /\ f_group r' = g /\ f_exp r' = None) ->
    forall f, wf_func f -> f_group f = g -> f_exp f = None -> exists f', rfold stepf cs f = Ok f' /\ wf_func f' /\ f_group f' = g /\ f_exp f' = None.
  Proof.
    induction cs as [|c cs IH]; intros Hst f W G X; simpl. eauto.
    destruct (Hst f c (or_introl eq_refl) W G X) as (r & -> & W1 & G1 & X1). cbn [rbind]. apply IH; auto. intros r0 c0 J. apply Hst. right; auto.
  Qed.
  Lemma factor_merge_solid ord (fs : list (func N)) :
    (forall l, Permutation (ord l) l) ->
    fs <> [] -> Forall (fun f => wf_func f /\ NoDup (map vkey (f_vars f))) fs -> ~ conflict (flat_map f_vars fs) ->
    exists f, factor_merge ord fs = Ok f /\ wf_factor f /\ f_exp f = None /\
      (forall v, In v (f_vars f) <-> exists g, In g fs /\ In v (f_vars g)).
  Proof.
    intros Hord Hne Hwf Hnc. unfold factor_merge, gather_variables.
    destruct (gather_fold (flat_map f_vars fs) [] ltac:(constructor)) as [[_ C]|(s & Hs & Hn & HI & _)].
    { simpl in C. contradiction. }
    rewrite Hs. cbn [rbind].
    assert (Hn' : NoDup (map vkey (ord s))).
    { apply Permutation_NoDup with (l := map vkey s); auto. apply Permutation_map. symmetry; auto. }
    assert (Hin : forall v, In v (ord s) <-> exists g, In g fs /\ In v (f_vars g)).
    { intros v. split.
      - intros H. apply Permutation_in with (l' := s) in H; auto. apply HI in H as [[]|H].
        apply in_flat_map in H as (g & H1 & H2). eauto.
      - intros (g & H1 & H2). apply Permutation_in with (l := s). symmetry; auto. apply HI. right.
        apply in_flat_map. eauto. }
    assert (Hne' : ord s <> []).
    { destruct fs as [|f0 fs0]; [congruence|]. inversion Hwf; subst. intros E.
      pose proof (wf_nonempty f0 (proj1 H1)) as HX. destruct (f_vars f0) as [|v0 vs0] eqn:E0; [congruence|].
      assert (In v0 (ord s)). { apply Hin. exists f0. split. left; auto. rewrite E0. left; auto. }
      rewrite E in H. inversion H. }
    assert (Hg : group_ctor (ord s) = Ok (mkGroup (ord s) (ord s))).
    { apply group_ctor_ok. auto. }
    rewrite Hg. cbn [rbind]. destruct fs as [|f0 fs0]; [congruence|].
    remember (f0 :: fs0) as fs eqn:Efs. clear Efs f0 fs0 Hne.
    cbn [g_soup].
    assert (Hpos : Forall (lt 0) (map vsize (ord s))).
    { apply Forall_forall. intros x Hx. apply in_map_iff in Hx as (v & <- & Hv).
      apply Hin in Hv as (g & Hg1 & Hg2). rewrite Forall_forall in Hwf. pose proof (wf_sizes g (proj1 (Hwf g Hg1))) as HP.
      rewrite Forall_forall in HP. apply HP. unfold sizes_of. apply in_map; auto. }
    set (same := filter (fun f => soup_eqb (f_vars f) (ord s)) fs).
    set (oth := filter (fun f => negb (soup_eqb (f_vars f) (ord s))) fs).
    assert (Hinc : forall g, In g fs -> incl (f_vars g) (ord s) ).
    { intros g Hgin v Hv. apply Hin. eauto. }
    (* finders *)
    destruct (rmap_exists (fun f => make_finder f (ord s)) oth) as (fds & EF & FF).
    { intros g Hgo. unfold oth in Hgo. apply filter_In in Hgo as [Hgo _].
      destruct (make_finder_ok g (ord s)) as (fd & Hfd & _); eauto.
      apply NoDup_incl_length; auto. rewrite Forall_forall in Hwf.
      destruct (Hwf g Hgo) as [_ ND]. apply NoDup_vkey_NoDup. exact ND. }
    rewrite EF. cbn [rbind].
    rewrite range_all_ok; auto.
    2:{ destruct (ord s); simpl; congruence. }
    cbn [rbind].
    pose (lk := fun c v => lookup_comb (ord s) c v).
    assert (HND : NoDup (ord s)) by (apply NoDup_vkey_NoDup; auto).
    set (G := mkGroup (ord s) (ord s)).
    destruct (rfold_keeps (fun r c =>
                 let* v1 := prod_until_zero (map f_findt same) c n1 in
                 let* v2 := prod_until_zero (map fd_findt fds) c v1 in
                 if neqb v2 n0 then Ok r else f_set r c v2) G (all_combs (map vsize (ord s))))
      with (f := func_ctor (N:=N) G) as (f & Hf & Wf & Gf & Xf).
    - intros r c Hc W Gr X. apply all_combs_In in Hc.
      destruct (lookup_comb_proper (ord s) c HND Hc) as [EC HP]. fold (lk c) in EC, HP.
      assert (HPg : forall g, In g fs -> proper (lk c) (f_vars g)).
      { intros g Hgin v Hv. apply HP. apply (Hinc g); auto. }
      destruct (prod_until_zero_total (map f_findt same) c) with (val := n1 : N) as (v1 & ->).
      { apply Forall_forall. intros g0 J. apply in_map_iff in J as (g & <- & J). apply filter_In in J as [H1 H2]. apply soup_eqb_eq in H2.
        assert (EC2 : map (lk c) (f_vars g) = c) by (rewrite H2; exact EC). eexists. apply f_findt_ok.
        rewrite Forall_forall in Hwf. apply (Hwf g H1). rewrite <- EC2. apply proper_valid. apply HPg; auto. }
      cbn [rbind]. destruct (prod_until_zero_total (map fd_findt fds) c) with (val := v1) as (v2 & ->).
      { assert (Hoth : forall g, In g oth -> In g fs) by (intros g Hgo; apply filter_In in Hgo; tauto).
        clear - FF Hoth Hwf HPg EC. induction FF as [|g fd oth' fds' Hg FF IH]; simpl; constructor.
        - pose proof (fd_findt_ok g (ord s) fd (lk c)) as Q. change (map (lk c) (ord s)) with (map (lookup_comb (ord s) c) (ord s)) in Q. rewrite EC in Q.
          eexists. apply Q; auto.
          + rewrite Forall_forall in Hwf. apply (Hwf g). apply Hoth; left; auto.
          + apply HPg. apply Hoth; left; auto.
        - apply IH. intros g' Hg'. apply Hoth; right; auto. }
      cbn [rbind]. destruct (neqb v2 n0). eauto.
      destruct (f_set_ok r c v2 W) as (r1 & E1 & W1 & G1 & X1 & _). { unfold fsizes. rewrite Gr. exact Hc. }
      exists r1. rewrite E1. split; auto. split; auto. split; congruence.
    - apply func_ctor_wf; auto.
    - reflexivity.
    - reflexivity.
    - exists f. split; [exact Hf|]. split. { split; auto. rewrite Gf. split; simpl; auto. }
      split; auto. intros v. unfold f_vars at 1. rewrite Gf. apply Hin.
  Qed.

  (** {1 permutation} *)
  Lemma permute_loop_ok (a : assignment) (new : list var) : NoDup new -> forall old done acc,
    NoDup (done ++ old) -> incl (done ++ old) new -> length acc = length new ->
    (forall v k, In v done -> find_var new v = Some k -> nth_error acc k = Some (a v)) ->
    exists acc', permute_loop (map a old) (compute_new_positions old new) acc = Ok acc' /\
      length acc' = length new /\
      (forall v k, In v (done ++ old) -> find_var new v = Some k -> nth_error acc' k = Some (a v)).
  Proof.
    intros Hnn. induction old as [|v old IH]; intros done acc Hn Hi HL HA; simpl.
    - exists acc. rewrite app_nil_r. auto.
    - assert (Hv : In v new) by (apply Hi; apply in_or_app; right; left; auto).
      apply find_var_in in Hv as (k & Hk). rewrite Hk.
      assert (Lk : k < length acc).
      { rewrite HL. apply nth_error_Some. rewrite (find_var_some _ _ _ Hk). discriminate. }
      rewrite vset_ok by auto. cbn [rbind].
      assert (AS : done ++ v :: old = (done ++ [v]) ++ old) by (rewrite <- app_assoc; reflexivity).
      rewrite AS in *.
      apply (IH (done ++ [v])); auto.
      + rewrite length_lset; auto.
      + intros w j Hw Hj. destruct (Nat.eq_dec k j) as [E|E].
        * subst j. assert (w = v).
          { apply find_var_some in Hk. apply find_var_some in Hj. congruence. }
          subst. apply nth_error_lset_eq; auto.
        * rewrite nth_error_lset_ne by auto. apply in_app_or in Hw as [Hw|[<-|[]]]; auto.
          congruence.
  Qed.

  Lemma get_permuted_ok (a : assignment) old new :
    NoDup old -> Permutation new old ->
    get_permuted (map a old) (compute_new_positions old new) = Ok (map a new).
  Proof.
    intros Hn Hp. unfold get_permuted.
    assert (Hnn : NoDup new) by (eapply Permutation_NoDup; [symmetry; eauto|auto]).
    destruct (permute_loop_ok a new Hnn old [] (map (fun _ => 0) (map a old))) as (acc & -> & HL & HA); auto.
    - intros v Hv. apply Permutation_in with (l := old); auto. symmetry; auto.
    - rewrite !map_length. apply Permutation_length. symmetry; auto.
    - intros v k [].
    - f_equal. simpl in HA.
      apply nth_ext with (d := 0) (d' := 0). { rewrite map_length; auto. }
      intros k Hk. rewrite HL in Hk.
      destruct (nth_error new k) as [v|] eqn:E.
      2:{ apply nth_error_None in E. lia. }
      assert (Hv : In v old) by (eapply Permutation_in; eauto; eapply nth_error_In; eauto).
      assert (FV : find_var new v = Some k).
      { assert (Hin : In v new) by (eapply nth_error_In; eauto).
        apply find_var_in in Hin as (j & Hj). pose proof (find_var_some _ _ _ Hj) as Hj'.
        assert (j = k); [|congruence].
        apply (NoDup_nth_error new); auto. 2: congruence.
        apply nth_error_Some. congruence. }
      specialize (HA v k Hv FV). apply nth_error_nth with (d := 0) in HA. rewrite HA.
      symmetry. apply nth_error_nth. apply map_nth_error; auto.
  Qed.

  Lemma rfold_ext {A S} (f g : S -> A -> res S) l :
    (forall s x, In x l -> f s x = g s x) -> forall s, rfold f l s = rfold g l s.
  Proof.
    induction l as [|x l IH]; simpl; intros H s; auto. rewrite H by auto.
    destruct (g s x); simpl; auto.
  Qed.

  Lemma rfold_map {A B S} (f : S -> B -> res S) (g : A -> B) l :
    forall s, rfold f (map g l) s = rfold (fun s a => f s (g a)) l s.
  Proof.
    induction l as [|x l IH]; simpl; intros s; auto. destruct (f s (g x)); simpl; auto.
  Qed.

  Lemma clone_permuted_ok f g : wf_factor f -> wf_group g -> Permutation (g_soup g) (f_vars f) ->
    exists f', clone_permuted f g = Ok f' /\ wf_factor f' /\ f_group f' = g /\ f_exp f' = None /\
      forall a, proper a (f_vars f) ->
        fimg f' (map a (g_soup g)) = fimg f (map a (f_vars f)).
  Proof.
    intros [W [Gn Gp]] [Hn Hp] P. unfold clone_permuted.
    assert (E : vset_eqb (g_set g) (g_set (f_group f)) = true).
    { apply vset_eqb_perm.
      - eapply Permutation_NoDup; [symmetry; apply Permutation_map; exact Hp|auto].
      - eapply Permutation_NoDup; [symmetry; apply Permutation_map; exact Gp|auto].
      - rewrite Hp, Gp. exact P. }
    rewrite E. rewrite f_each_ok by auto. cbn [rbind].
    set (pos := compute_new_positions (f_vars f) (g_soup g)).
    assert (HND : NoDup (f_vars f)) by (apply NoDup_vkey_NoDup; exact Gn).
    assert (HND' : NoDup (g_soup g)) by (apply NoDup_vkey_NoDup; exact Hn).
    pose (lk := fun c v => lookup_comb (f_vars f) c v).
    assert (LK : forall c, valid_comb (fsizes f) c -> map (lk c) (f_vars f) = c /\ proper (lk c) (f_vars f)).
    { intros c V. apply lookup_comb_proper; auto. }
    pose (perm := fun c => map (lk c) (g_soup g)).
    rewrite (rfold_ext _ (fun r e => f_set r (perm (fst e)) (snd e))).
    2:{ intros r e He. apply in_map_iff in He as (c & <- & Hc). apply all_combs_In in Hc. simpl.
        destruct (LK c Hc) as [EC _]. unfold pos. rewrite <- EC at 1.
        rewrite get_permuted_ok; auto. }
    pose proof (rfold_map (fun (r : func N) (e : list nat * N) => f_set r (fst e) (snd e))
                  (fun e : list nat * N => (perm (fst e), snd e))
                  (map (fun c => (c, tr false f (fimg f c))) (all_combs (fsizes f)))
                  (func_ctor g)) as RM.
    cbn [fst snd] in RM. rewrite <- RM. clear RM.
    rewrite map_map. cbn [fst snd].
    assert (VP : forall c, valid_comb (fsizes f) c -> valid_comb (sizes_of g) (perm c)).
    { intros c V. destruct (LK c V) as [_ PP]. apply proper_valid. intros v Hv. apply PP.
      eapply Permutation_in; eauto. }
    destruct (fold_set_ok (map (fun c => (perm c, tr false f (fimg f c))) (all_combs (fsizes f)))
                (func_ctor g)) as (f' & H & W' & G' & X & I).
    - apply func_ctor_wf.
      + intros E0. rewrite E0 in P. apply Permutation_nil in P. exact (wf_nonempty f W P).
      + apply Forall_forall. intros x Hx. apply in_map_iff in Hx as (v & <- & Hv).
        pose proof (wf_sizes f W) as HP. rewrite Forall_forall in HP. apply HP. apply in_map.
        eapply Permutation_in; eauto.
    - rewrite map_map. simpl. apply Forall_forall. intros c Hc. apply in_map_iff in Hc as (d & <- & Hd).
      apply VP. apply all_combs_In; auto.
    - exists f'. split; [exact H|]. split.
      { split; auto. rewrite G'. simpl. split; auto. }
      split; [exact G'|]. split; [exact X|].
      intros a Pa.
      assert (Va : valid_comb (fsizes f) (map a (f_vars f))) by (apply proper_valid; auto).
      assert (Pg : proper a (g_soup g)) by (intros v Hv; apply Pa; eapply Permutation_in; eauto).
      rewrite I by (apply (proper_valid a (g_soup g)); auto). rewrite <- map_rev.
      assert (Q : forall l, In (map a (f_vars f)) l -> Forall (valid_comb (fsizes f)) l ->
        assoc (map (fun c => (perm c, tr false f (fimg f c))) l) (map a (g_soup g)) = Some (fimg f (map a (f_vars f)))).
      { induction l as [|c l IHl]; simpl; intros Hin HV. contradiction. inversion HV; subst.
        destruct (list_eqb (perm c) (map a (g_soup g))) eqn:Eq.
        - apply list_eqb_eq in Eq. destruct (LK c H2) as [EC PP].
          assert (EQ : map (lk c) (f_vars f) = map a (f_vars f)).
          { apply map_ext_in. intros v Hv. assert (Hvg : In v (g_soup g)) by (eapply Permutation_in; [symmetry; eauto|auto]).
            unfold perm in Eq. apply In_nth_error in Hvg as (k & Hk).
            pose proof (map_nth_error (lk c) k _ Hk) as Q1. pose proof (map_nth_error a k _ Hk) as Q2.
            rewrite Eq in Q1. congruence. }
          rewrite EC in EQ. subst c. reflexivity.
        - destruct Hin as [->|Hin]; auto. exfalso.
          destruct (LK _ Va) as [EC _].
          assert (perm (map a (f_vars f)) = map a (g_soup g)).
          { unfold perm. apply map_ext_in. intros v Hv.
            assert (Hvf : In v (f_vars f)) by (eapply Permutation_in; eauto).
            apply In_nth_error in Hvf as (k & Hk).
            pose proof (map_nth_error (lk (map a (f_vars f))) k _ Hk) as Q1. rewrite EC in Q1.
            pose proof (map_nth_error a k _ Hk) as Q2. congruence. }
          apply list_eqb_eq in H0. congruence. }
      rewrite Q; auto.
      + apply -> in_rev. apply all_combs_In; auto.
      + apply Forall_forall. intros c Hc. apply in_rev in Hc. apply all_combs_In; auto.
  Qed.

  Lemma clone_permuted_throw f g : wf_factor f -> wf_group g -> ~ Permutation (g_soup g) (f_vars f) ->
    clone_permuted f g = Throw.
  Proof.
    intros [W [Gn Gp]] [Hn Hp] P. unfold clone_permuted.
    destruct (vset_eqb (g_set g) (g_set (f_group f))) eqn:E; auto. exfalso. apply P.
    apply vset_eqb_perm in E.
    - rewrite Hp, Gp in E. exact E.
    - eapply Permutation_NoDup; [symmetry; apply Permutation_map; exact Hp|auto].
    - eapply Permutation_NoDup; [symmetry; apply Permutation_map; exact Gp|auto].
  Qed.

  (** {1 exponential factors} *)
  Lemma exp_ctor_ok f w : wf_func f ->
    exists e, exp_ctor f w = Ok e /\ wf_func e /\ f_group e = f_group f /\ f_exp e = Some w /\
      forall c, valid_comb (fsizes f) c -> fimg e c = fimg f c.
  Proof.
    intros W. unfold exp_ctor. rewrite f_each_ok by auto. cbn [rbind].
    eexists; split; [reflexivity|]. split; [|split; [|split]]; auto.
    - destruct W. split; simpl; auto. rewrite !map_length. apply all_combs_length.
    - intros c V. unfold fimg at 1; simpl. unfold fsizes at 1; simpl.
      change (sizes_of (f_group f)) with (fsizes f). rewrite map_map. simpl.
      apply nth_error_nth. apply (map_nth_error (fun c => fimg f c)). apply nth_error_all_combs; auto.
  Qed.

  (** {1 probabilities} *)
  Lemma fold_left_sum (l : list N) a : fold_left nadd l a = (a + sumL (fun x => x) l)%num.
  Proof. revert a; induction l as [|x l IH]; simpl; intros a. ring. rewrite IH. ring. Qed.

  Lemma get_probabilities_ok f : wf_func f ->
    get_probabilities f =
    Ok (let S := sumL (fval f) (all_combs (fsizes f)) in
        map (fun c => if neqb S n0 then (n1 / nofnat (prodn (fsizes f)))%num else (fval f c / S)%num)
            (all_combs (fsizes f))).
  Proof.
    intros W. unfold get_probabilities. rewrite f_each_ok by auto. cbn [rbind].
    rewrite map_map. simpl. rewrite fold_left_sum, sumL_map.
    assert (E : (n0 + sumL (fun c => transform f (fimg f c)) (all_combs (fsizes f)))%num
                = sumL (fval f) (all_combs (fsizes f))).
    { unfold fval. ring. }
    rewrite E. rewrite map_length, all_combs_length.
    destruct (neqb (sumL (fval f) (all_combs (fsizes f))) n0); rewrite map_map; reflexivity.
  Qed.

  Lemma sumL_const {A} (l : list A) (c : N) : sumL (fun _ => c) l = (nofnat (length l) * c)%num.
  Proof. induction l; simpl. ring. rewrite IHl. ring. Qed.

  Lemma sumL_id_map {A} (h : A -> N) l : sumL (fun x => x) (map h l) = sumL h l.
  Proof. apply (sumL_map (fun x => x) h). Qed.
End FaP.
