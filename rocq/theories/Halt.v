(** Termination of the propagation *)
From Coq Require Import String List Arith Bool Lia Permutation Relations.
From Verif Require Import Res Num Categoric Combs Func FuncProofs GroupProofs FactorProofs FactorApi Special SpecialProofs
  Graph GraphLemmas Clusters Belief Query GraphInv EvidInv BeliefInv GraphSpec Hist Tree BPRun Indep.
Import ListNotations.
Open Scope nat_scope.

Definition halts {A} (r : res A) : Prop := r <> Loop.
Definition stops {S A} (o : out S A) : Prop := o <> NoStop.

Lemma halts_bind {A B} (r : res A) (f : A -> res B) : halts r -> (forall a, r = Ok a -> halts (f a)) -> halts (rbind r f).
Proof. unfold halts. destruct r; simpl; auto; congruence. Qed.
Lemma halts_ok {A} (a : A) : halts (Ok a).
Proof. discriminate. Qed.
Lemma vget_halts {A} (l : list A) k : halts (vget l k).
Proof. unfold vget. destruct (nth_error l k); discriminate. Qed.
Lemma vset_halts {A} (l : list A) k a : halts (vset l k a).
Proof. unfold vset. destruct (k <? length l); discriminate. Qed.
Lemma rmap_halts {A B} (f : A -> res B) l : (forall x, In x l -> halts (f x)) -> halts (rmap f l).
Proof.
  induction l as [|x l IH]; simpl; intros F. apply halts_ok. apply halts_bind. apply F; auto. intros y _. apply halts_bind. apply IH; intros; apply F; auto. intros; apply halts_ok.
Qed.
(** a fold that keeps a property of its state *)
Lemma rfold_halts {A S} (P : S -> Prop) (f : S -> A -> res S) l : (forall s x, In x l -> P s -> halts (f s x) /\ forall s', f s x = Ok s' -> P s') ->
  forall s, P s -> halts (rfold f l s) /\ forall s', rfold f l s = Ok s' -> P s'.
Proof.
  induction l as [|x l IH]; simpl; intros F s Ps. { split. apply halts_ok. intros s' [= <-]. auto. }
  destruct (F s x (or_introl eq_refl) Ps) as [F1 F2]. destruct (f s x) as [s1| | | |] eqn:E; simpl; try (split; [discriminate|intros; discriminate]).
  - apply IH; auto.
  - congruence.
Qed.

Lemma stops_bind {S A B} (o : out S A) (f : A -> S -> out S B) : stops o -> (forall a s, o = Ret a s -> stops (f a s)) -> stops (obind o f).
Proof. unfold stops. destruct o; simpl; auto; congruence. Qed.
Lemma stops_lift {S A} (r : res A) (s : S) : halts r -> stops (lift r s).
Proof. unfold halts, stops. destruct r; simpl; congruence. Qed.
Lemma stops_ret {S A} (a : A) (s : S) : stops (Ret a s).
Proof. discriminate. Qed.

Section Halt.
  Context {N : num}.
  Variable H : nat -> func N.
  Hypothesis HG : solids H.
  Notation gst := (gst (N:=N)).
  Implicit Types s : gst.
  Notation core := (core H).

  (** {1 Functions over variables of positive size} *)
  Definition sized (f : func N) : Prop := Forall (lt 0) (i_sizes (f_info f)) /\ Forall (fun v => 0 < vsize v) (f_vars f).
  Lemma made_sizes (vs : list var) : Forall made vs -> Forall (fun v => 0 < vsize v) vs.
  Proof. intros F. eapply Forall_impl; [|exact F]. exact made_pos. Qed.
  Lemma ctor_sized g : Forall (fun v => 0 < vsize v) (g_soup g) -> sized (func_ctor g).
  Proof. intros F. split; auto. simpl. apply Forall_map. exact F. Qed.
  Lemma mergable_sized v : 0 < vsize v -> sized (mergable (N:=N) v).
  Proof. intros L. split; repeat constructor; auto. Qed.
  Lemma good_sized f : solid f -> sized f.
  Proof.
    intros ((W & _) & M). split. rewrite (wf_info _ W). apply (wf_sizes _ W). apply made_sizes; auto.
  Qed.
  Lemma with_data_sized f d : sized f -> sized (with_data f d).
  Proof. auto. Qed.

  Lemma range_halts sizes : Forall (lt 0) sizes -> halts (range_all sizes).
  Proof. intros F. destruct sizes as [|x l]. vm_compute. discriminate. rewrite range_all_ok; auto; discriminate. Qed.
  Lemma hash_loop_halts : forall ss cs p a, halts (hash_loop ss cs p a).
  Proof. induction ss as [|x ss IH]; intros [|c cs] p a; simpl; try discriminate. destruct x. discriminate. apply IH. Qed.
  Lemma f_each_halts t f : sized f -> halts (f_each t f).
  Proof.
    intros [S _]. unfold f_each. apply halts_bind. apply range_halts; auto. intros cs _. destruct (f_data f) as [l|v].
    - apply rmap_halts. intros c _. apply halts_bind. unfold sparse_find. apply halts_bind. apply hash_loop_halts. intros; apply halts_ok. intros; apply halts_ok.
    - revert v. induction cs as [|c cs IH]; intros [|x v]; simpl; try discriminate. apply halts_bind. apply IH. intros; apply halts_ok.
  Qed.
  Lemma to_dense_halts i l : halts (to_dense (N:=N) i l).
  Proof.
    unfold to_dense. apply (rfold_halts (fun _ => True)); auto. intros values e _ _. split; auto. apply halts_bind. apply hash_loop_halts. intros h _. apply vset_halts.
  Qed.
  Lemma f_set_halts f c (x : N) : halts (f_set f c x).
  Proof.
    unfold f_set. destruct (f_data f).
    - apply halts_bind. apply hash_loop_halts. intros _ _. destruct (i_critical (f_info f) <=? length (assoc_set l c x)).
      + apply halts_bind. apply to_dense_halts. intros; apply halts_ok.
      + apply halts_ok.
    - apply halts_bind. apply hash_loop_halts. intros h _. apply halts_bind. apply vset_halts. intros; apply halts_ok.
  Qed.
  Lemma f_set_sized f c (x : N) f' : sized f -> f_set f c x = Ok f' -> sized f'.
  Proof.
    intros S. unfold f_set. destruct (f_data f); intros Q; apply rbind_ok in Q as (h & _ & Q).
    - destruct (i_critical (f_info f) <=? length (assoc_set l c x)). apply rbind_ok in Q as (v & _ & Q). injection Q as <-. exact S. injection Q as <-. exact S.
    - apply rbind_ok in Q as (v' & _ & Q). injection Q as <-. exact S.
  Qed.
  Lemma f_findt_halts f c : halts (f_findt (N:=N) f c).
  Proof.
    unfold f_findt. apply halts_bind; [|intros; apply halts_ok]. unfold f_find, sparse_find. destruct (f_data f).
    - apply halts_bind; [|intros; apply halts_ok]. apply halts_bind. apply hash_loop_halts. intros; apply halts_ok.
    - apply halts_bind. apply hash_loop_halts. intros; apply vget_halts.
  Qed.
  Lemma probabilities_halts f : sized f -> halts (get_probabilities f).
  Proof. intros S. unfold get_probabilities. apply halts_bind. apply f_each_halts; auto. intros es _. destruct (neqb _ n0); apply halts_ok. Qed.
  Lemma diff_halts f g : sized f -> sized g -> halts (diff f g).
  Proof.
    intros A B. unfold diff. apply halts_bind. apply probabilities_halts; auto. intros x _. apply halts_bind. apply probabilities_halts; auto. intros y _.
    generalize (n0 : N). revert y. induction x as [|a x IH]; intros [|b y] acc; simpl; try discriminate. apply IH.
  Qed.
  Lemma unary_var_halts f : halts (unary_var (N:=N) f).
  Proof. unfold unary_var. apply halts_bind. apply vget_halts. intros v _. destruct (length (f_vars f) =? 1); discriminate. Qed.

  (** {1 The factors of the propagation} *)
  Lemma merge_halts me x : sized me -> (forall f, x = Some f -> sized f) -> halts (merged_merge me x) /\ forall me', merged_merge me x = Ok me' -> sized me'.
  Proof.
    intros S X. unfold merged_merge. destruct x as [f|]; [|split; [discriminate|intros; discriminate]]. specialize (X f eq_refl).
    assert (U := unary_var_halts me). destruct (unary_var me) as [v| | | |]; cbn [rbind]; try (split; [discriminate|intros; discriminate]); [|congruence].
    destruct (negb (length (f_vars f) =? 1)); [split; [discriminate|intros; discriminate]|].
    assert (V := vget_halts (f_vars f) 0). destruct (vget (f_vars f) 0) as [w| | | |]; cbn [rbind]; try (split; [discriminate|intros; discriminate]); [|congruence].
    destruct (negb (var_peqb w v)); [split; [discriminate|intros; discriminate]|].
    unfold mergable_merge. destruct (f_data me) as [l|imgs]; [split; [discriminate|intros; discriminate]|].
    assert (E := f_each_halts true f X). destruct (f_each true f) as [es| | | |]; cbn [rbind]; try (split; [discriminate|intros; discriminate]); [|congruence].
    assert (L : halts (merge_loop imgs es)).
    { clear. revert imgs. induction es as [|[c x] es IH]; intros [|i imgs]; simpl; try discriminate. apply halts_bind. apply IH. intros; apply halts_ok. }
    destruct (merge_loop imgs es) as [i'| | | |]; cbn [rbind]; try (split; [discriminate|intros; discriminate]); [|congruence].
    split. apply halts_ok. intros me' [= <-]. auto.
  Qed.
  Lemma merged_unaries_halts l : (forall f, In (Some f) l -> sized f) -> halts (merged_unaries l) /\ forall m, merged_unaries l = Ok m -> sized m.
  Proof.
    intros S. unfold merged_unaries. destruct l as [|[f0|] l]; try (split; [discriminate|intros; discriminate]).
    assert (V := vget_halts (f_vars f0) 0). destruct (vget (f_vars f0) 0) as [v| | | |] eqn:Ev; cbn [rbind]; try (split; [discriminate|intros; discriminate]); [|congruence].
    assert (Lv : 0 < vsize v).
    { destruct (S f0 (or_introl eq_refl)) as [_ F]. rewrite Forall_forall in F. apply F. unfold vget in Ev. destruct (nth_error (f_vars f0) 0) eqn:Q; [|discriminate]. injection Ev as <-. eapply nth_error_In; eauto. }
    destruct (rfold_halts sized merged_merge (Some f0 :: l)) with (s := mergable (N:=N) v) as [R1 R2].
    { intros me x I M. apply merge_halts; auto. intros f ->. auto. }
    { apply mergable_sized; auto. }
    destruct (rfold merged_merge (Some f0 :: l) (mergable v)) as [m| | | |]; cbn [rbind]; try (split; [discriminate|intros; discriminate]); [|congruence].
    specialize (R2 m eq_refl). unfold mergable_normalize. destruct (f_data m) as [|imgs]; [split; [discriminate|intros; discriminate]|].
    destruct imgs as [|i0 imgs]; simpl; [split; [discriminate|intros; discriminate]|]. destruct (ndz _); [split; [discriminate|intros; discriminate]|].
    split. apply halts_ok. intros m' [= <-]. auto.
  Qed.
  Lemma other_var_sized b v w : sized b -> get_other_var (N:=N) b v = Ok w -> 0 < vsize w.
  Proof.
    intros [_ F]. unfold get_other_var. destruct (f_vars b) as [|x [|y [|]]]; try discriminate. inversion F as [|? ? Fx F']; subst. inversion F'; subst.
    intros [= <-]. destruct (var_peqb x v); auto.
  Qed.
  Lemma fill_halts k mg b rec : sized mg -> sized b -> sized rec -> halts (fill_message k mg b rec) /\ forall m, fill_message k mg b rec = Ok m -> sized m.
  Proof.
    intros A B R. unfold fill_message. assert (U := unary_var_halts mg). destruct (unary_var mg) as [sv| | | |]; cbn [rbind]; try (split; [discriminate|intros; discriminate]); [|congruence].
    destruct (get_positions b sv) as [[mp sp]| | | |] eqn:GP; cbn [rbind]; try (split; [discriminate|intros; discriminate]).
    2:{ unfold get_positions in GP. destruct (rev (f_vars b)); discriminate. }
    assert (V := vget_halts (f_vars b) mp). destruct (vget (f_vars b) mp) as [mv| | | |]; cbn [rbind]; try (split; [discriminate|intros; discriminate]); [|congruence].
    apply rfold_halts; auto. intros rec' r _ R'.
    assert (E := f_each_halts true mg A). destruct (f_each true mg) as [es| | | |]; cbn [rbind]; try (split; [discriminate|intros; discriminate]); [|congruence].
    set (g := fun (val : N) (e : list nat * N) => _).
    assert (G : halts (rfold g es (red_init k))).
    { apply (rfold_halts (fun _ => True)); auto. intros val x _ _. split; auto. unfold g. apply halts_bind. apply vget_halts. intros y _. apply halts_bind. apply vset_halts. intros c _.
      apply halts_bind. apply vset_halts. intros c' _. apply halts_bind. apply f_findt_halts. intros; apply halts_ok. }
    destruct (rfold g es (red_init k)) as [val| | | |]; cbn [rbind]; try (split; [discriminate|intros; discriminate]); [|congruence].
    split. apply f_set_halts. intros m Q. eapply f_set_sized; eauto.
  Qed.
  Lemma message_halts k mg b : sized mg -> sized b -> halts (message k mg b) /\ forall m, message k mg b = Ok m -> sized m.
  Proof.
    intros A B. unfold message. assert (U := unary_var_halts mg). destruct (unary_var mg) as [sv| | | |]; cbn [rbind]; try (split; [discriminate|intros; discriminate]); [|congruence].
    destruct (get_other_var b sv) as [w| | | |] eqn:Q; cbn [rbind]; try (split; [discriminate|intros; discriminate]).
    2:{ unfold get_other_var in Q. destruct (f_vars b) as [|? [|? [|]]]; discriminate. }
    apply fill_halts; auto. apply ctor_sized. constructor; auto. eapply other_var_sized; eauto.
  Qed.
  Lemma evidence_halts b v k : sized b -> forall m, evidence_factor (N:=N) b v k = Ok m -> sized m.
  Proof.
    intros B m Q. unfold evidence_factor in Q. apply rbind_ok in Q as (w & Qw & Q). apply rbind_ok in Q as (my & Qm & Q). apply rbind_ok in Q as ([ph pe] & Qp & Q). apply rbind_ok in Q as (es & Qe & Q).
    assert (S0 : sized (func_ctor (N:=N) (group_single w))). { apply ctor_sized. constructor; auto. eapply other_var_sized; eauto. }
    revert S0 Q. generalize (func_ctor (N:=N) (group_single w)). clear Qe. induction es as [|x es IH]; simpl; intros d Sd Q. injection Q as <-. auto.
    apply rbind_ok in Q as (d' & Qd & Q). apply (IH d'); auto. apply rbind_ok in Qd as (ce & _ & Qd). destruct (ce =? k).
    - apply rbind_ok in Qd as (ch & _ & Qd). eapply f_set_sized; eauto.
    - injection Qd as <-. auto.
  Qed.

  Lemma gather_halts ord fs : halts (gather_variables ord (fs : list (func N))).
  Proof.
    unfold gather_variables. apply halts_bind.
    - apply (rfold_halts (fun _ => True)); auto. intros l v _ _. split; auto. unfold gather_step. destruct (find (var_veqb v) l) as [y|]; [destruct (var_peqb y v)|]; discriminate.
    - intros l _. unfold group_ctor. destruct (length (ord l) =? 0); [discriminate|]. destruct (length (ord l) =? length (to_vars_set (ord l))); discriminate.
  Qed.
  Lemma gather_sized ord fs g : (forall l, incl (ord l) l) -> Forall sized (fs : list (func N)) -> gather_variables ord fs = Ok g -> Forall (fun v => 0 < vsize v) (g_soup g).
  Proof.
    intros O F. unfold gather_variables. intros Q. apply rbind_ok in Q as (l & Q1 & Q).
    assert (Fl : Forall (fun v => 0 < vsize v) l).
    { eapply (rfold_halts (fun l => Forall (fun v => 0 < vsize v) l) gather_step (flat_map f_vars fs)); [|constructor|exact Q1].
      intros l0 v I P. assert (Lv : 0 < vsize v). { apply in_flat_map in I as (f & If & Iv). rewrite Forall_forall in F. destruct (F f If) as [_ Fv]. rewrite Forall_forall in Fv. auto. }
      unfold gather_step. destruct (find (var_veqb v) l0) as [y|]; [destruct (var_peqb y v)|]; (split; [discriminate|]); intros s' Z; try discriminate; injection Z as <-; auto.
      apply Forall_app; auto. }
    unfold group_ctor in Q. destruct (length (ord l) =? 0); [discriminate|]. destruct (length (ord l) =? length (to_vars_set (ord l))); [|discriminate]. injection Q as <-. simpl.
    rewrite Forall_forall in *. intros v I. apply Fl, O, I.
  Qed.
  Lemma extract_halts fd c : halts (extract_smaller (N:=N) fd c).
  Proof. unfold extract_smaller. apply rmap_halts. intros; apply vget_halts. Qed.
  Lemma prod_halts (gs : list (list nat -> res N)) c : (forall g, In g gs -> halts (g c)) -> forall v, halts (prod_until_zero gs c v).
  Proof.
    induction gs as [|g gs IH]; simpl; intros F v. apply halts_ok. destruct (neqb v n0). apply halts_ok. apply halts_bind; auto.
  Qed.
  Lemma merge_factor_halts ord fs : (forall l, incl (ord l) l) -> Forall sized (fs : list (func N)) -> halts (factor_merge ord fs) /\ forall f, factor_merge ord fs = Ok f -> sized f.
  Proof.
    intros O F. unfold factor_merge. assert (G := gather_halts ord fs). destruct (gather_variables ord fs) as [g| | | |] eqn:Eg; cbn [rbind]; try (split; [discriminate|intros; discriminate]); [|congruence].
    assert (Sg := gather_sized ord fs g O F Eg). destruct fs as [|f0 fs]; [split; [discriminate|intros; discriminate]|]. set (fl := f0 :: fs) in *.
    match goal with |- context [rbind (rmap ?fn ?l) _] => assert (M : halts (rmap fn l)) end.
    { apply rmap_halts. intros f _. unfold make_finder, get_indices. apply halts_bind. destruct (length (g_soup g) <? length (f_vars f)); [discriminate|]. apply rmap_halts. intros v _. destruct (find_var (g_soup g) v); discriminate. intros; apply halts_ok. }
    match goal with |- context [rbind (rmap ?fn ?l) _] => destruct (rmap fn l) as [fds| | | |]; cbn [rbind]; try (split; [discriminate|intros; discriminate]); [|congruence] end.
    assert (R : halts (range_all (map vsize (g_soup g)))) by (apply range_halts, Forall_map, Sg).
    destruct (range_all (map vsize (g_soup g))) as [cs| | | |]; cbn [rbind]; try (split; [discriminate|intros; discriminate]); [|congruence].
    apply rfold_halts; [|apply ctor_sized; auto]. intros r c _ Sr.
    match goal with |- context [rbind (prod_until_zero ?gs c ?v) _] => assert (P : halts (prod_until_zero gs c v)) end.
    { apply prod_halts. intros x I. apply in_map_iff in I as (f & <- & _). apply f_findt_halts. }
    match goal with |- context [rbind (prod_until_zero ?gs c ?v) _] => destruct (prod_until_zero gs c v) as [v1| | | |]; cbn [rbind]; try (split; [discriminate|intros; discriminate]); [|congruence] end.
    match goal with |- context [rbind (prod_until_zero ?gs c ?v) _] => assert (P2 : halts (prod_until_zero gs c v)) end.
    { apply prod_halts. intros x I. apply in_map_iff in I as (f & <- & _). unfold fd_findt. apply halts_bind. apply extract_halts. intros; apply f_findt_halts. }
    match goal with |- context [rbind (prod_until_zero ?gs c ?v) _] => destruct (prod_until_zero gs c v) as [v2| | | |]; cbn [rbind]; try (split; [discriminate|intros; discriminate]); [|congruence] end.
    destruct (neqb v2 n0). split. apply halts_ok. intros f [= <-]. auto. split. apply f_set_halts. intros f Q. eapply f_set_sized; eauto.
  Qed.
  Lemma clone_halts f g : sized f -> halts (clone_permuted (N:=N) f g).
  Proof.
    intros S. unfold clone_permuted. destruct (vset_eqb (g_set g) (g_set (f_group f))); [|discriminate]. apply halts_bind. apply f_each_halts; auto. intros es _.
    apply (rfold_halts (fun _ => True)); auto. intros r x _ _. split; auto. apply halts_bind; [|intros; apply f_set_halts].
    unfold get_permuted. generalize (compute_new_positions (f_vars f) (g_soup g)) (map (fun _ => 0) (fst x)). induction (fst x) as [|y l IH]; intros [|p ps] acc; simpl; try discriminate.
    apply halts_bind. apply vset_halts. auto.
  Qed.

  (** {1 The state} *)

  (** every factor stored in the state is over variables of positive size *)
  Record szd s : Prop := {
    sz_vars : Forall (fun v => 0 < vsize v) (g_vars s);
    sz_act : forall a b c m, act s a b = Some c -> c_msg c = Some m -> sized m;
    sz_dis : forall a b c m, dis s a b = Some c -> c_msg c = Some m -> sized m;
    sz_merged : forall a m, nd_merged (g_node s a) = Some m -> sized m
  }.
  (** an outcome of a computation that ends *)
  Definition calm {A} (o : out gst A) : Prop :=
    match o with Ret _ s' => szd s' | Thr s' => szd s' | NoStop => False | _ => True end.

  Lemma calm_bind {A B} (o : out gst A) (f : A -> gst -> out gst B) : calm o -> (forall a s, o = Ret a s -> szd s -> calm (f a s)) -> calm (obind o f).
  Proof. destruct o; simpl; auto. Qed.
  Lemma calm_lift {A} (r : res A) s : szd s -> halts r -> calm (lift r s).
  Proof. unfold halts. destruct r; simpl; auto; congruence. Qed.
  Lemma calm_fold {A} (f : A -> gst -> out gst unit) l : (forall x s, In x l -> szd s -> calm (f x s)) -> forall s, szd s -> calm (ofold f l s).
  Proof. induction l as [|x l IH]; simpl; intros F s Z. exact Z. apply calm_bind. apply F; auto. intros _ s' _ Z'. apply IH; auto. Qed.
  Lemma calm_lift_bind {A B} (r : res A) s (f : A -> gst -> out gst B) : szd s -> halts r -> (forall a, r = Ok a -> calm (f a s)) -> calm (obind (lift r s) f).
  Proof. unfold halts. destruct r; simpl; auto; congruence. Qed.

  Lemma szd_same s s' : g_vars s' = g_vars s -> g_node s' = g_node s -> szd s -> szd s'.
  Proof. intros V Nd Z. destruct Z as [Z1 Z2 Z3 Z4]. constructor; unfold act, dis in *; rewrite ?V, ?Nd; auto. Qed.
  Lemma szd_cl s c : szd s -> szd (set_cl s c). Proof. apply szd_same; auto. Qed.
  Lemma szd_ev s c : szd s -> szd (set_ev s c). Proof. apply szd_same; auto. Qed.
  Lemma szd_last s c : szd s -> szd (set_last s c). Proof. apply szd_same; auto. Qed.
  Lemma szd_all s c : szd s -> szd (set_all s c). Proof. apply szd_same; auto. Qed.
  Lemma szd_pool s c : szd s -> szd (set_pool s c). Proof. apply szd_same; auto. Qed.
  Lemma szd_next s c : szd s -> szd (set_next s c). Proof. apply szd_same; auto. Qed.
  Definition nd_szd (nd : node (N:=N)) : Prop :=
    (forall b c m, nd_act nd b = Some c -> c_msg c = Some m -> sized m) /\ (forall b c m, nd_dis nd b = Some c -> c_msg c = Some m -> sized m) /\
    (forall m, nd_merged nd = Some m -> sized m).
  Lemma szd_nd s a : szd s -> nd_szd (g_node s a).
  Proof. intros Z. split; [|split]; intros; [eapply (sz_act s Z a)|eapply (sz_dis s Z a)|eapply (sz_merged s Z a)]; eauto. Qed.
  Lemma szd_node s a nd : szd s -> nd_szd nd -> szd (set_node s a nd).
  Proof.
    intros Z (A & D & M). constructor. apply Z.
    - intros x y c m. unfold act. simpl. unfold fupd. destruct (x =? a). apply A. apply (sz_act s Z).
    - intros x y c m. unfold dis. simpl. unfold fupd. destruct (x =? a). apply D. apply (sz_dis s Z).
    - intros x m. simpl. unfold fupd. destruct (x =? a). apply M. apply (sz_merged s Z).
  Qed.
  Lemma nd_act_upd nd b x : nd_szd nd -> (forall c m, x = Some c -> c_msg c = Some m -> sized m) -> nd_szd (with_act nd (fupd (nd_act nd) b x)).
  Proof. intros (A & D & M) X. split; [|split]; simpl; auto. intros y c m. unfold fupd. destruct (y =? b). apply X. apply A. Qed.
  Lemma nd_dis_upd nd b x : nd_szd nd -> (forall c m, x = Some c -> c_msg c = Some m -> sized m) -> nd_szd (with_dis nd (fupd (nd_dis nd) b x)).
  Proof. intros (A & D & M) X. split; [|split]; simpl; auto. intros y c m. unfold fupd. destruct (y =? b). apply X. apply D. Qed.
  Lemma nd_merged_upd nd x : nd_szd nd -> (forall m, x = Some m -> sized m) -> nd_szd (with_merged nd x).
  Proof. intros (A & D & M) X. split; [|split]; simpl; auto. Qed.
  Lemma szd_set_merged s a m : szd s -> sized m -> szd (set_merged s a m).
  Proof. intros Z S. apply szd_node; auto. apply nd_merged_upd. apply szd_nd; auto. intros x [= <-]; auto. Qed.
  Lemma szd_drop_merged s a : szd s -> szd (drop_merged s a).
  Proof. intros Z. apply szd_node; auto. apply nd_merged_upd. apply szd_nd; auto. discriminate. Qed.
  Lemma szd_erase_act s a b : szd s -> szd (erase_act s a b).
  Proof. intros Z. apply szd_node; auto. apply nd_act_upd. apply szd_nd; auto. discriminate. Qed.
  Lemma szd_erase_dis s a b : szd s -> szd (erase_dis s a b).
  Proof. intros Z. apply szd_node; auto. apply nd_dis_upd. apply szd_nd; auto. discriminate. Qed.
  Lemma szd_put_act s a b f : szd s -> szd (put_act s a b f).
  Proof. intros Z. apply szd_next, szd_node; auto. apply nd_act_upd. apply szd_nd; auto. intros c m [= <-]. discriminate. Qed.
  Lemma szd_put_dis s a b f : szd s -> szd (put_dis s a b f).
  Proof. intros Z. apply szd_next, szd_node; auto. apply nd_dis_upd. apply szd_nd; auto. intros c m [= <-]. discriminate. Qed.
  Lemma szd_activate s a b f : szd s -> szd (activate s a b f).
  Proof. intros Z. apply szd_put_act, szd_put_act, szd_erase_dis, szd_erase_dis, Z. Qed.
  Lemma szd_disable s a b f : szd s -> szd (disable s a b f).
  Proof. intros Z. apply szd_put_dis, szd_put_dis, szd_erase_act, szd_erase_act, Z. Qed.
  Lemma calm_set_act s a b m : szd s -> (forall f, m = Some f -> sized f) -> calm (set_act_msg s a b m).
  Proof.
    intros Z S. unfold set_act_msg. destruct (act s a b) as [c|]; simpl; auto. apply szd_node; auto. apply nd_act_upd. apply szd_nd; auto.
    intros c' m' [= <-]. simpl. apply S.
  Qed.
  Lemma calm_set_dis s a b m : szd s -> sized m -> calm (set_dis_msg s a b m).
  Proof.
    intros Z S. unfold set_dis_msg. destruct (dis s a b) as [c|]; simpl; auto. apply szd_node; auto. apply nd_dis_upd. apply szd_nd; auto.
    intros c' m' [= <-]. simpl. intros [= <-]. auto.
  Qed.

  (** {1 Propagation} *)
  Lemma node_var_halts s a : halts (node_var s a).
  Proof. apply vget_halts. Qed.
  Lemma node_var_sized s a v : szd s -> node_var s a = Ok v -> 0 < vsize v.
  Proof.
    intros Z Q. unfold node_var, vget in Q. destruct (nth_error (g_vars s) a) eqn:X; [|discriminate]. injection Q as <-. apply nth_error_In in X.
    pose proof (sz_vars s Z) as F. rewrite Forall_forall in F. auto.
  Qed.
  Lemma calm_update_merged e a s : szd s -> calm (update_merged H e a s).
  Proof.
    intros Z. unfold update_merged.
    assert (G : forall f, In (Some f) (gather_unaries H e s a) -> sized f).
    { intros f I. unfold gather_unaries in I. apply in_app_or in I as [I|I]; apply in_map_iff in I as (b & Q & I).
      - injection Q as <-. apply good_sized, HG.
      - destruct (dis s a b) as [c|] eqn:D; [|discriminate]. eapply (sz_dis s Z); eauto. }
    destruct (gather_unaries H e s a) as [|x l] eqn:Q.
    - apply calm_lift_bind; auto. apply node_var_halts. intros v Ev. simpl. apply szd_set_merged; auto. apply mergable_sized. eapply node_var_sized; eauto.
    - destruct (merged_unaries_halts (x :: l) G) as [M1 M2]. apply calm_lift_bind; auto. intros m Em. simpl. apply szd_set_merged; auto.
  Qed.
  Lemma calm_topo_loop e nodes : forall acc s, szd s -> calm (topo_loop H e nodes acc s).
  Proof.
    induction nodes as [|a nodes IH]; intros acc s Z; cbn [topo_loop]. exact Z. apply calm_bind. apply calm_update_merged; auto. intros _ s1 _ Z1.
    apply calm_lift_bind; auto. unfold sender_topo. apply rmap_halts. intros r _. destruct (act s1 r a); [|discriminate]. apply halts_bind; [|intros; apply halts_ok].
    apply rmap_halts. intros k _. destruct (act s1 a k); discriminate.
  Qed.
  Lemma get_cl_halts s i : halts (get_cl s i).
  Proof. apply vget_halts. Qed.
  Lemma calm_prepare e i s : szd s -> calm (prepare H e i s).
  Proof.
    intros Z. unfold prepare. apply calm_lift_bind; auto. apply get_cl_halts. intros cl _. destruct (cl_topo cl).
    - apply calm_fold; auto. intros a s1 _ Z1. destruct (nd_merged (g_node s1 a)). exact Z1. apply calm_update_merged; auto.
    - unfold update_connectivity. apply calm_lift_bind; auto. apply get_cl_halts. intros c' _. apply calm_bind. apply calm_topo_loop; auto.
      intros ts s1 _ Z1. simpl. apply szd_cl; auto.
  Qed.
  Lemma calm_reset e s : szd s -> calm (reset_messages e s).
  Proof.
    intros Z. apply calm_fold; auto. intros cl s1 _ Z1. apply calm_fold; auto. intros a s2 _ Z2. apply calm_fold; auto. intros b s3 _ Z3. apply calm_set_act; auto. discriminate.
  Qed.
  Lemma deref_halts s a b u : halts (deref s a b u).
  Proof. unfold deref. destruct (act s a b) as [c|]; [destruct (c_uid c =? u)|]; discriminate. Qed.
  Lemma dep_messages_halts s a deps : szd s -> halts (dep_messages s a deps) /\ forall ms, dep_messages s a deps = Ok (Some ms) -> Forall sized ms.
  Proof.
    intros Z. induction deps as [|[d u] deps [IH1 IH2]]; simpl. { split. apply halts_ok. intros ms [= <-]. constructor. }
    unfold deref. destruct (act s a d) as [c|] eqn:Ac; simpl; [|split; [discriminate|intros; discriminate]]. destruct (c_uid c =? u); simpl; [|split; [discriminate|intros; discriminate]].
    destruct (c_msg c) as [m|] eqn:Em; [|split; [discriminate|intros; discriminate]].
    destruct (dep_messages s a deps) as [[ms|]| | | |]; simpl; try (split; [discriminate|intros; discriminate]); [|congruence].
    split. apply halts_ok. intros ms' [= <-]. constructor; auto. eapply (sz_act s Z); eauto.
  Qed.
  Lemma calm_update k t s : szd s -> calm (update_message H k t s).
  Proof.
    intros Z. unfold update_message. destruct (nd_merged (g_node s (t_snd t))) as [mu|] eqn:Mu; [|exact Z].
    destruct (dep_messages_halts s (t_snd t) (t_deps t) Z) as [D1 D2]. apply calm_lift_bind; auto. intros [ms|] Em; [|exact Z].
    destruct (merged_unaries_halts (Some mu :: map Some ms)) as [U1 U2].
    { intros f [Q|I]. injection Q as <-. eapply (sz_merged s Z); eauto. apply in_map_iff in I as (f' & [= ->] & I). specialize (D2 ms Em). rewrite Forall_forall in D2. auto. }
    apply calm_lift_bind; auto. intros mg Eg. apply calm_lift_bind; auto. apply deref_halts. intros c Ec.
    destruct (message_halts k mg (H (c_fac c)) (U2 _ Eg) (good_sized _ (HG _))) as [M1 M2]. apply calm_lift_bind; auto. intros m Emm.
    apply calm_bind. apply calm_set_act; auto. intros f [= <-]; auto. intros _ s1 _ Z1. destruct (c_msg c) as [old|] eqn:Eo; [|exact Z1].
    apply calm_lift_bind; auto. apply diff_halts; auto. eapply (sz_act s Z); eauto. eapply deref_act; eauto.
  Qed.
  Lemma select_halts s l : halts (select s l).
  Proof.
    induction l as [|t l IH]; simpl. apply halts_ok. apply halts_bind.
    - induction (t_deps t) as [|[d u] ds IHd]; simpl. apply halts_ok. apply halts_bind. apply deref_halts. intros c _. destruct (c_msg c); auto. apply halts_ok.
    - intros b _. apply halts_bind; auto. intros [r w] _. apply halts_ok.
  Qed.
  (** the list of the messages left gets shorter at each round *)
  Lemma calm_mp_loop e pool k n : forall l s, length l <= n -> szd s -> calm (mp_loop H n e pool k l s).
  Proof.
    induction n as [|n IH]; intros [|t l] s L Z; simpl in L; try lia; try exact Z. cbn [mp_loop]. apply calm_lift_bind; auto. apply select_halts. intros [ready wait] Q.
    destruct (select_facts s (t :: l) ready wait Q) as [P _]. destruct ready as [|r ready]; [exact Z|]. apply calm_bind.
    - apply calm_fold; auto. intros t' s' _ Z'. apply calm_bind. apply calm_update; auto. intros o s2 _ Z2. exact Z2.
    - intros _ s1 _ Z1. apply IH; auto. apply Permutation_length in P. rewrite app_length in P. simpl in P. lia.
  Qed.
  Lemma calm_message_passing e pool k i s : szd s -> calm (message_passing H e pool k i s).
  Proof. intros Z. unfold message_passing. apply calm_lift_bind; auto. apply get_cl_halts. intros cl _. destruct (cl_topo cl); [|exact Z]. apply calm_mp_loop; auto. Qed.
  Lemma calm_loopy_tasks k l : forall v s, szd s -> calm (loopy_tasks H k l v s).
  Proof. induction l as [|t l IH]; intros v s Z; cbn [loopy_tasks]. exact Z. apply calm_bind. apply calm_update; auto. intros [x|] s1 _ Z1; auto. Qed.
  Lemma calm_loopy_sweep e pool k bs : forall v s, szd s -> calm (loopy_sweep H e pool k bs v s).
  Proof. induction bs as [|b bs IH]; intros v s Z; cbn [loopy_sweep]. exact Z. apply calm_bind. apply calm_loopy_tasks; auto. intros; auto. Qed.
  Lemma calm_loopy_iter e pool k bs n : forall s, szd s -> calm (loopy_iter H n e pool k bs s).
  Proof.
    induction n as [|n IH]; intros s Z; cbn [loopy_iter]. exact Z. apply calm_bind. apply calm_loopy_sweep; auto. intros v s1 _ Z1. destruct (below_tolerance v). exact Z1. auto.
  Qed.
  Lemma calm_loopy e pool k i s : szd s -> calm (loopy_propagate H e pool k i s).
  Proof.
    intros Z. unfold loopy_propagate. apply calm_lift_bind; auto. apply get_cl_halts. intros cl _. apply calm_bind.
    - apply calm_fold; auto. intros a s1 _ Z1. apply calm_lift_bind; auto. apply node_var_halts. intros v Ev. apply calm_fold; auto. intros b s2 _ Z2. apply calm_set_act; auto.
      intros f [= <-]. apply mergable_sized. apply (node_var_sized s1 a); auto.
    - intros _ s1 _ Z1. destruct (cl_topo cl) as [ts|]; [|exact Z1]. destruct (loopy_order_ok pool ts) as (bs & Eb & _). rewrite Eb. apply calm_loopy_iter; auto.
  Qed.
  Lemma calm_prop_loop e pool k is : forall r s, szd s -> calm (prop_loop H e pool k is r s).
  Proof.
    induction is as [|i is IH]; intros r s Z; cbn [prop_loop]. exact Z. apply calm_bind. apply calm_prepare; auto. intros _ s1 _ Z1. apply calm_lift_bind; auto. apply get_cl_halts. intros cl _.
    apply calm_bind. apply calm_message_passing; auto. intros tree s2 _ Z2. destruct tree; auto. apply calm_bind. apply calm_loopy; auto. intros; auto.
  Qed.
  Theorem calm_propagate e k s : szd s -> calm (propagate H e k s).
  Proof.
    intros Z. unfold propagate. destruct (negb (would_need s k)). exact Z. destruct (g_pool s); [|exact Z]. apply calm_bind. apply calm_reset; auto. intros _ s1 _ Z1.
    apply calm_bind. apply calm_prop_loop; auto. intros r s2 _ Z2. simpl. apply szd_last; auto.
  Qed.
  Lemma calm_scoped {A} n (body : gst -> out gst A) s : szd s -> (forall s, szd s -> calm (body s)) -> calm (scoped_pool n body s).
  Proof.
    intros Z B. unfold scoped_pool. apply calm_bind.
    - unfold set_pool_size. destruct (g_pool s) as [pl|]; simpl; auto. destruct (n =? pl). exact Z. destruct (n =? 0); simpl; apply szd_pool; auto.
    - intros _ s1 _ Z1. specialize (B s1 Z1). destruct (body s1); simpl in *; auto; apply szd_pool; auto.
  Qed.
  Lemma calm_check e k n s : szd s -> calm (check_propagation H e k n s).
  Proof. intros Z. unfold check_propagation. destruct (would_need s k); [|exact Z]. apply calm_scoped; auto. intros; apply calm_propagate; auto. Qed.

  (** {1 Queries} *)
  Lemma incoming_halts e s a : szd s -> halts (incoming e s a) /\ forall m, incoming e s a = Ok m -> sized m.
  Proof.
    intros Z. unfold incoming. destruct (nd_merged (g_node s a)) as [mu|] eqn:Mu; [|split; [discriminate|intros; discriminate]]. apply merged_unaries_halts.
    intros f [Q|I]. injection Q as <-. eapply (sz_merged s Z); eauto. apply in_map_iff in I as (b & Q & _). destruct (act s a b) as [c|] eqn:Ac; [|discriminate]. eapply (sz_act s Z); eauto.
  Qed.
  Lemma marginal_at_halts e s a l : szd s -> halts (marginal_at e s a l).
  Proof.
    intros Z. destruct l; simpl. destruct (incoming_halts e s a Z) as [I1 I2]. apply halts_bind; auto. intros m Em. apply probabilities_halts; auto.
    apply halts_bind. apply node_var_halts. intros; apply vset_halts.
  Qed.
  Lemma calm_marginal e k v n s : szd s -> calm (marginal_query H e k v n s).
  Proof.
    intros Z. unfold marginal_query. apply calm_bind. apply calm_check; auto. intros _ s1 _ Z1. destruct (locate s1 v) as [[a l]|]; [|exact Z1]. apply calm_lift; auto. apply marginal_at_halts; auto.
  Qed.
  Lemma find_variable_halts s n : halts (find_variable s n).
  Proof. unfold find_variable. destruct (find _ _); discriminate. Qed.
  Lemma find_max_halts (l : list N) : halts (find_max l).
  Proof. destruct l; discriminate. Qed.
  Lemma calm_map e v n s : szd s -> calm (get_map H e v n s).
  Proof. intros Z. unfold get_map. apply calm_bind. apply calm_marginal; auto. intros l s1 _ Z1. apply calm_lift; auto. apply find_max_halts. Qed.
  Lemma calm_hidden_map e n s : szd s -> calm (get_hidden_map H e n s).
  Proof.
    intros Z. unfold get_hidden_map. apply calm_bind. apply calm_check; auto. intros _ s1 _ Z1. apply calm_lift; auto. apply rmap_halts. intros v _. destruct (find_node s1 v) as [a|]; [|discriminate].
    destruct (incoming_halts e s1 a Z1) as [I1 I2]. apply halts_bind; auto. intros m Em. apply halts_bind. apply probabilities_halts; auto. intros; apply find_max_halts.
  Qed.
  Lemma permute_incl {A} (p : list nat -> list nat) (l : list A) : (forall l, Permutation (p l) l) -> incl (permute p l) l.
  Proof. intros P x. apply Permutation_in, permute_perm; auto. Qed.
  Lemma calm_joint e g n s : env_ok e -> szd s -> calm (get_joint H e g n s).
  Proof.
    intros E Z. unfold get_joint. apply calm_bind. apply calm_check; auto. intros _ s1 _ Z1. apply calm_lift_bind; auto.
    { apply rmap_halts. intros v _. destruct (locate s1 v); discriminate. }
    intros locs _. apply calm_lift; auto. apply halts_bind.
    { apply (rfold_halts (fun _ => True)); auto. intros [cs inds] [a l] _ _. split; auto. simpl. destruct l; [|discriminate]. destruct (nd_merged (g_node s1 a)); [|discriminate].
      apply halts_bind. apply rmap_halts. intros b _. destruct (act s1 a b); discriminate. intros; apply halts_ok. }
    intros [cs inds] _. apply halts_bind.
    { apply rmap_halts. intros c _. destruct c as [a|a b|f|k]; simpl. destruct (nd_merged (g_node s1 a)); discriminate. destruct (act s1 a b) as [c|]; [destruct (c_msg c)|]; discriminate. discriminate.
      apply halts_bind. apply vget_halts. intros [a v] _. destruct (k + 1 <? length inds). discriminate. apply halts_bind. apply node_var_halts. intros w _. unfold indicator. destruct (vsize w <=? v). discriminate. apply f_set_halts. }
    intros fs Ef.
    assert (F : Forall sized fs).
    { apply Forall_forall. intros f I. revert fs Ef I. generalize (permute (e_ord e (gsize s1)) cs). induction l as [|c l IH]; simpl; intros fs Ef I. injection Ef as <-. destruct I.
      apply rbind_ok in Ef as (f0 & E0 & Ef). apply rbind_ok in Ef as (fs' & E1 & Ef). injection Ef as <-. destruct I as [<-|I]; [|eapply IH; eauto].
      destruct c as [a|a b|f1|k]; simpl in E0.
      - destruct (nd_merged (g_node s1 a)) eqn:Q; [|discriminate]. injection E0 as <-. eapply (sz_merged s1 Z1); eauto.
      - destruct (act s1 a b) as [c|] eqn:Q; [|discriminate]. destruct (c_msg c) eqn:Q'; [|discriminate]. injection E0 as <-. eapply (sz_act s1 Z1); eauto.
      - injection E0 as <-. apply good_sized, HG.
      - apply rbind_ok in E0 as ([a v] & _ & E0). destruct (k + 1 <? length inds). discriminate. apply rbind_ok in E0 as (w & Ew & E0). unfold indicator in E0. destruct (vsize w <=? v). discriminate.
        eapply f_set_sized; [|exact E0]. apply ctor_sized. constructor; auto. eapply node_var_sized; eauto. }
    destruct (merge_factor_halts (permute (e_ord e (gsize s1))) fs) as [M1 M2]; auto.
    { intros l. apply permute_incl. intros l'. apply (proj1 E). }
    apply halts_bind; auto. intros f Q. apply clone_halts; auto.
  Qed.

  (** {1 Mutators} *)
  Lemma calm_find_or_make s v : 0 < vsize v -> szd s -> calm (find_or_make s v).
  Proof.
    intros L Z. unfold find_or_make. destruct (locate s v) as [[a l]|].
    - apply calm_lift_bind; auto. apply node_var_halts. intros w _. destruct (var_peqb v w); exact Z.
    - simpl. constructor; simpl.
      + apply Forall_app. split; [apply Z|auto].
      + intros a b c m. unfold act. simpl. unfold fupd. destruct (a =? gsize s). discriminate. apply (sz_act s Z).
      + intros a b c m. unfold dis. simpl. unfold fupd. destruct (a =? gsize s). discriminate. apply (sz_dis s Z).
      + intros a m. unfold fupd. destruct (a =? gsize s). discriminate. apply (sz_merged s Z).
  Qed.
  Lemma vget_pos f k v : vget (fvars H f) k = Ok v -> 0 < vsize v.
  Proof.
    unfold vget. destruct (nth_error (fvars H f) k) eqn:Q; [|discriminate]. intros [= <-]. apply nth_error_In in Q. destruct (good_sized _ (HG f)) as [_ F]. rewrite Forall_forall in F. auto.
  Qed.
  Lemma evidence_factor_halts b v k : sized b -> halts (evidence_factor (N:=N) b v k).
  Proof.
    intros B. unfold evidence_factor. apply halts_bind. unfold get_other_var. destruct (f_vars b) as [|? [|? [|]]]; discriminate. intros w _. apply halts_bind. apply unary_var_halts. intros my _.
    apply halts_bind. unfold get_positions. destruct (rev (f_vars b)); discriminate. intros [ph pe] _. apply halts_bind. apply f_each_halts; auto. intros es _.
    apply (rfold_halts (fun _ => True)); auto. intros d x _ _. split; auto. apply halts_bind. apply vget_halts. intros ce _. destruct (ce =? k). apply halts_bind. apply vget_halts. intros; apply f_set_halts. apply halts_ok.
  Qed.
  Lemma calm_hybrid s h v k f : szd s -> calm (hybrid_insertion H s h v k f).
  Proof.
    intros Z. unfold hybrid_insertion. apply (szd_disable s h v f) in Z. apply calm_lift_bind; auto. apply node_var_halts. intros w _. apply calm_lift_bind; auto. apply evidence_factor_halts, good_sized, HG.
    intros m Em. apply calm_bind. apply calm_set_dis; auto. eapply evidence_halts; eauto. apply good_sized, HG. intros _ s1 _ Z1. simpl. apply szd_drop_merged; auto.
  Qed.
  Lemma calm_add d s : szd s -> calm (add_distribution H s d).
  Proof.
    intros Z. unfold add_distribution. destruct d as [f|]; [|exact Z]. destruct (mem f (g_all s)). exact Z. apply (szd_last s None) in Z. apply calm_bind; [|intros _ s1 _ Z1; apply szd_all; auto].
    destruct (length (fvars H f)) as [|[|[|n]]]; try exact Z.
    - unfold add_unary. apply calm_lift_bind; auto. apply vget_halts. intros v Ev. apply calm_bind. apply calm_find_or_make; auto. eapply vget_pos; eauto. intros [a l] s1 _ Z1. simpl.
      apply szd_drop_merged, szd_node; auto. destruct (szd_nd s1 a Z1) as (A & D & M). split; [|split]; simpl; auto.
    - unfold add_binary. apply calm_lift_bind; auto. apply vget_halts. intros va Ea. apply calm_lift_bind; auto. apply vget_halts. intros vb Eb.
      apply calm_bind. apply calm_find_or_make; auto. eapply vget_pos; eauto. intros [a la] s1 _ Z1. apply calm_bind. apply calm_find_or_make; auto. eapply vget_pos; eauto. intros [b lb] s2 _ Z2.
      destruct (is_some (act s2 a b) || is_some (dis s2 a b)). exact Z2. destruct la as [i|x], lb as [j|y]; simpl.
      + apply (szd_activate s2 a b f) in Z2. apply calm_lift_bind; auto. apply get_cl_halts. intros ci _. destruct (i =? j). apply szd_cl; auto. apply calm_lift_bind. apply szd_cl; auto. apply get_cl_halts.
        intros cj _. apply szd_cl, szd_cl; auto.
      + apply calm_hybrid; auto.
      + apply calm_hybrid; auto.
      + apply szd_disable; auto.
  Qed.
  Lemma calm_send e a k s : szd s -> calm (send_evidence H e a k s).
  Proof.
    intros Z. unfold send_evidence. apply calm_lift_bind; auto. apply node_var_halts. intros w _. apply calm_fold; auto. intros b s1 _ Z1. destruct (dis s1 b a) as [c|]; [|exact I].
    apply calm_lift_bind; auto. apply evidence_factor_halts, good_sized, HG. intros m Em. apply calm_bind. apply calm_set_dis; auto. eapply evidence_halts; eauto. apply good_sized, HG.
    intros _ s2 _ Z2. apply szd_drop_merged; auto.
  Qed.
  Lemma calm_set_evidence e v k s : szd s -> calm (set_evidence H e s v k).
  Proof.
    intros Z. unfold set_evidence. destruct (vsize v <=? k). exact Z. destruct (locate s v) as [[a l]|]; [|exact Z]. apply calm_bind.
    - destruct l as [i|x]; [|apply szd_ev; auto]. apply calm_bind.
      + apply calm_fold; auto. intros b s1 _ Z1. unfold disable_known. destruct (act s1 a b); [|exact Z1]. apply szd_disable; auto.
      + intros _ s1 _ Z1. apply calm_lift_bind; auto. apply get_cl_halts. intros ci _. simpl. apply szd_ev. destruct (length (cl_nodes ci) =? 1); repeat apply szd_cl; auto.
    - intros _ s1 _ Z1. apply calm_bind. apply calm_send; auto. intros _ s2 _ Z2. apply szd_last; auto.
  Qed.
  Lemma calm_remove_ e v s : szd s -> calm (remove_evidence_ e v s).
  Proof.
    intros Z. unfold remove_evidence_. destruct (find_node s v) as [a|]; [|exact Z]. destruct (g_ev s a); [|exact Z]. apply calm_bind.
    - apply calm_fold. intros b s1 _ Z1. destruct (dis s1 a b); [|exact I]. apply szd_activate, szd_drop_merged; auto. apply szd_ev, szd_last; auto.
    - intros _ s1 _ Z1. apply szd_drop_merged; auto.
  Qed.
  Lemma calm_remove e v s : szd s -> calm (remove_evidence e s v).
  Proof. intros Z. unfold remove_evidence. apply calm_bind. apply calm_remove_; auto. intros _ s1 _ Z1. apply szd_cl; auto. Qed.
  Lemma calm_removes e vs s : szd s -> calm (remove_evidences e s vs).
  Proof.
    intros Z. unfold remove_evidences. destruct vs as [|v vs]; [exact Z|]. apply calm_bind. apply calm_fold; auto. intros; apply calm_remove_; auto. intros _ s1 _ Z1. apply szd_cl; auto.
  Qed.
  Lemma calm_remove_all e s : szd s -> calm (remove_all_evidences e s).
  Proof.
    intros Z. unfold remove_all_evidences. apply calm_bind. apply calm_fold; auto. intros a s1 _ Z1. apply calm_lift_bind; auto. apply node_var_halts. intros v _. apply calm_remove_; auto.
    intros _ s1 _ Z1. apply szd_cl; auto.
  Qed.

  (** {1 Calls} *)
  Lemma calm_omap {A} (f : A -> answer) (o : out gst A) : calm o -> calm (omap f o).
  Proof. intros C. unfold omap. apply calm_bind; auto. Qed.
  Theorem calm_call e op s : env_ok e -> szd s -> calm (call H e op s).
  Proof.
    intros E Z. destruct op; cbn [call]; try (apply calm_omap).
    - apply calm_add; auto.
    - apply calm_set_evidence; auto.
    - unfold set_evidence_name. apply calm_lift_bind; auto. apply find_variable_halts. intros; apply calm_set_evidence; auto.
    - apply calm_remove; auto.
    - unfold remove_evidence_name. apply calm_lift_bind; auto. apply find_variable_halts. intros; apply calm_remove; auto.
    - apply calm_removes; auto.
    - unfold remove_evidences_names. apply calm_lift_bind; auto. apply rmap_halts. intros; apply find_variable_halts. intros; apply calm_removes; auto.
    - apply calm_remove_all; auto.
    - apply calm_marginal; auto.
    - unfold get_marginal_name. apply calm_lift_bind; auto. apply find_variable_halts. intros; apply calm_marginal; auto.
    - apply calm_map; auto.
    - unfold get_map_name. apply calm_lift_bind; auto. apply find_variable_halts. intros; apply calm_map; auto.
    - apply calm_hidden_map; auto.
    - apply calm_joint; auto.
    - unfold get_joint_names. apply calm_lift_bind; auto. apply rmap_halts. intros; apply find_variable_halts. intros vs _. apply calm_lift_bind; auto.
      unfold group_ctor. destruct (length vs =? 0); [discriminate|]. destruct (length vs =? length (to_vars_set vs)); discriminate. intros; apply calm_joint; auto.
    - apply calm_scoped; auto. intros; apply calm_propagate; auto.
    - apply (szd_same s); auto.
  Qed.
  Lemma szd_empty : szd g_empty.
  Proof. constructor; simpl; auto; intros; discriminate. Qed.
  Theorem reach_szd G ops s : reach H G ops s -> szd s.
  Proof.
    induction 1 as [|ops s e op a s' R IH _ E Q|ops s e op s' R IH _ E Q]. apply szd_empty.
    - pose proof (calm_call e op s E IH) as C. rewrite Q in C. exact C.
    - pose proof (calm_call e op s E IH) as C. rewrite Q in C. exact C.
  Qed.
  Theorem reach_stops G ops s e op : reach H G ops s -> env_ok e -> call H e op s <> NoStop.
  Proof. intros R E Q. pose proof (calm_call e op s E (reach_szd _ _ _ R)) as C. rewrite Q in C. exact C. Qed.
End Halt.

(** {1 The messages computed by a propagation} *)
Section Trace.
  Context {N : num} (OK : num_ok N).
  Variable H : nat -> func N.
  Notation gst := (gst (N:=N)).
  Implicit Types s : gst.

  (** a message computed, with what [updateMessage] returned: how much the message
      changed *)
  Notation comp := (topo * option (vari (N:=N)))%type.
  (** messages computed one after the other *)
  Fixpoint computes (k : kind) (l : list comp) s s' : Prop :=
    match l with
    | [] => s' = s
    | t :: r => exists s1, update_message H k (fst t) s = Ret (snd t) s1 /\ computes k r s1 s'
    end.
  (** 1/1000 *)
  Definition milli : N := let ten := nofnat 10 in (n1 / (ten * ten * ten))%num.
  (** the change is below the tolerance *)
  Definition small (t : comp) : bool :=
    match snd t with Some (VNum x) => nltb x milli | _ => false end.
  (** no message of a sweep changed more than the tolerance *)
  Definition settled (l : list comp) : Prop := forall t, In t l -> small t = true.

  Lemma computes_app k l1 l2 : forall s s1 s2, computes k l1 s s1 -> computes k l2 s1 s2 -> computes k (l1 ++ l2) s s2.
  Proof. induction l1 as [|t l1 IH]; simpl; intros s s1 s2 C1 C2. subst; auto. destruct C1 as (x & Q & C1). exists x. split; eauto. Qed.
  Lemma fold_computes k l : forall s s', ofold (fun t s => do (_, s) <- update_message H k t s ;; Ret tt s) l s = Ret tt s' ->
    exists l', map fst l' = l /\ computes k l' s s'.
  Proof.
    induction l as [|t l IH]; simpl; intros s s' Q. injection Q as <-. exists []. simpl. auto. destruct (update_message H k t s) as [o s1| | | |] eqn:U; try discriminate.
    destruct (IH _ _ Q) as (l' & <- & C). exists ((t, o) :: l'). simpl. split; auto. exists s1. auto.
  Qed.
  Lemma nmax_lt (a b t : N) : nltb (nmax a b) t = nltb a t && nltb b t.
  Proof.
    unfold nmax. destruct (nltb a b) eqn:E; destruct (nltb a t) eqn:A; destruct (nltb b t) eqn:B; simpl; auto.
    - exfalso. rewrite (ok_trans N OK a b t E B) in A. discriminate.
    - exfalso. pose proof (nle_lt_trans OK b a t E A). congruence.
  Qed.
  Lemma thousand : (tolerance : N) = milli.
  Proof. unfold tolerance, milli. generalize (nofnat (N:=N) 10). intros t. f_equal. apply (Ring_theory.Rmul_assoc (Field_theory.F_R (ok_field N OK))). Qed.
  Lemma below_max v x : below_tolerance (vmax v x) = below_tolerance v && match x with VNum x => nltb x milli | _ => false end.
  Proof. rewrite <- thousand. destruct v as [|v], x as [|x]; simpl; auto. rewrite andb_false_r; auto. apply nmax_lt. Qed.
  Lemma tasks_computes k l : forall v s v' s', loopy_tasks H k l v s = Ret v' s' ->
    exists l', map fst l' = l /\ computes k l' s s' /\ below_tolerance v' = below_tolerance v && forallb small l'.
  Proof.
    induction l as [|t l IH]; cbn [loopy_tasks computes]; intros v s v' s' Q. injection Q as <- <-. exists []. simpl. rewrite andb_true_r. auto.
    destruct (update_message H k t s) as [[x|] s1| | | |] eqn:U; try discriminate.
    destruct (IH _ _ _ _ Q) as (l' & <- & C & B). exists ((t, Some x) :: l'). simpl. splits; auto. exists s1; auto. rewrite B, below_max, andb_assoc. auto.
  Qed.

  (** the direct propagation computes messages of the list, none of them twice,
      and all of them when it succeeds *)
  Theorem mp_trace e pool k n : env_ok e -> forall l s b s', mp_loop H n e pool k l s = Ret b s' ->
    exists tr rest, Permutation (map fst tr ++ rest) l /\ computes k tr s s' /\ (b = true -> rest = []).
  Proof.
    intros E. induction n as [|n IH]; intros [|t l] s b s' Q; cbn [mp_loop] in Q; try discriminate.
    - injection Q as <- <-. exists [], []. simpl. auto.
    - injection Q as <- <-. exists [], []. simpl. auto.
    - destruct (select s (t :: l)) as [[ready wait]| | | |] eqn:Qs; cbn [lift obind] in Q; try discriminate. destruct (select_facts s (t :: l) ready wait Qs) as [P _].
      destruct ready as [|r ready]. { injection Q as <- <-. exists [], (t :: l). simpl. splits; auto. discriminate. }
      match type of Q with obind ?o _ = _ => destruct o as [[] s1| | | |] eqn:Qf; try discriminate end. cbn [obind] in Q. apply fold_computes in Qf as (l' & El & Qf).
      destruct (IH _ _ _ _ Q) as (tr & rest & P1 & C1 & B1). exists (l' ++ tr), rest. splits; auto.
      + rewrite map_app, El, <- P, <- P1, app_assoc. apply Permutation_app_tail, Permutation_app_tail. apply schedule_perm; auto.
      + eapply computes_app; eauto.
  Qed.
  Lemma sweep_trace e pool k : env_ok e -> forall bs v s v' s', loopy_sweep H e pool k bs v s = Ret v' s' ->
    exists tr, Permutation (map fst tr) (concat bs) /\ computes k tr s s' /\ below_tolerance v' = below_tolerance v && forallb small tr.
  Proof.
    intros E. induction bs as [|b bs IH]; cbn [loopy_sweep concat]; intros v s v' s' Q. injection Q as <- <-. exists []. simpl. rewrite andb_true_r. auto.
    destruct (loopy_tasks H k (schedule e pool b) v s) as [v1 s1| | | |] eqn:Qt; try discriminate. cbn [obind] in Q. destruct (IH _ _ _ _ Q) as (tr & P & C & B).
    destruct (tasks_computes _ _ _ _ _ _ Qt) as (l' & El & C' & B'). exists (l' ++ tr). splits.
    - rewrite map_app, El. apply Permutation_app; auto. apply schedule_perm; auto.
    - eapply computes_app; eauto.
    - rewrite B, B', forallb_app, andb_assoc. auto.
  Qed.
  (** the sweeps made, and whether the last one settled: none settled before it *)
  Definition outcome (n : nat) (done : bool) (sweeps : list (list comp)) : Prop :=
    if done then length sweeps <= n /\ exists before last, sweeps = before ++ [last] /\ settled last /\ forall x, In x before -> ~ settled x
    else length sweeps = n /\ forall x, In x sweeps -> ~ settled x.
  Lemma settled_forallb l : forallb small l = true <-> settled l.
  Proof. unfold settled. rewrite forallb_forall. tauto. Qed.
  (** each iteration computes every message once *)
  Theorem iter_trace e pool k bs n : env_ok e -> forall s b s', loopy_iter H n e pool k bs s = Ret b s' ->
    exists trs, outcome n b trs /\ (forall tr, In tr trs -> Permutation (map fst tr) (concat bs)) /\ computes k (concat trs) s s'.
  Proof.
    intros E. induction n as [|n IH]; cbn [loopy_iter]; intros s b s' Q. injection Q as <- <-. exists []. simpl. splits; auto; intros tr [].
    destruct (loopy_sweep H e pool k bs (VNum n0) s) as [v s1| | | |] eqn:Qs; try discriminate. cbn [obind] in Q. destruct (sweep_trace e pool k E _ _ _ _ _ Qs) as (tr & P & C & B).
    assert (B0 : below_tolerance (VNum (n0 (n:=N))) = true). { simpl. rewrite thousand. apply (ndiv_pos OK). apply (nlt_0_1 OK). assert (0 < nofnat 10)%num by (apply (nofnat_pos OK); lia). apply (ok_mul N OK); auto. apply (ok_mul N OK); auto. }
    rewrite B0 in B. simpl in B. destruct (below_tolerance v).
    - injection Q as <- <-. exists [tr]. split. { split. simpl; lia. exists [], tr. splits; auto. apply settled_forallb; auto. }
      split. intros x [<-|[]]; auto. simpl. rewrite app_nil_r. auto.
    - destruct (IH _ _ _ Q) as (trs & O & PS & CS). assert (NS : ~ settled tr) by (rewrite <- settled_forallb; congruence). exists (tr :: trs). split.
      { destruct b; simpl in *.
        - destruct O as (L & before & last & -> & S1 & S2). split. lia. exists (tr :: before), last. splits; auto. intros x [<-|I]; auto.
        - destruct O as (L & S1). split. lia. intros x [<-|I]; auto. }
      split. intros x [<-|I]; auto. simpl. eapply computes_app; eauto.
  Qed.
End Trace.

(** {1 The work of a whole propagation} *)
Section Work.
  Context {N : num} (OK : num_ok N).
  Variable H : nat -> func N.
  Notation gst := (gst (N:=N)).
  Implicit Types s : gst.
  Notation core := (core H).
  Notation comp := (topo * option (vari (N:=N)))%type.

  (** a propagation is made of the reset of the messages, of the preparation of
      the clusters, of the assignment of ones to the messages of a cluster and
      of computations of messages; the list has the messages computed, with their
      changes *)
  Inductive work (e : env) (k : kind) : list comp -> gst -> gst -> Prop :=
  | W_end s : work e k [] s s
  | W_reset l s s1 s' : reset_messages e s = Ret tt s1 -> work e k l s1 s' -> work e k l s s'
  | W_prepare i l s s1 s' : prepare H e i s = Ret tt s1 -> work e k l s1 s' -> work e k l s s'
  | W_ones cl l s s1 s' : set_ones e cl s = Ret tt s1 -> work e k l s1 s' -> work e k l s s'
  | W_message t o l s s1 s' : update_message H k t s = Ret o s1 -> work e k l s1 s' -> work e k ((t, o) :: l) s s'
  | W_result r s : work e k [] s (set_last s r).

  Lemma work_computes e k l1 : forall s s1, computes H k l1 s s1 -> forall l2 s2, work e k l2 s1 s2 -> work e k (l1 ++ l2) s s2.
  Proof. induction l1 as [|t l1 IH]; simpl; intros s s1 C l2 s2 W. subst; auto. destruct C as (x & Q & C). destruct t as [t o]. eapply W_message; eauto. Qed.

  (** the messages exchanged by the nodes of a set, each one once *)
  Definition all_messages s (S : list nat) (l : list topo) : Prop :=
    NoDup (map t_edge l) /\ forall a b, In (a, b) (map t_edge l) <-> In a S /\ eact s a b.
  Definition some_messages s (S : list nat) (l : list topo) : Prop :=
    NoDup (map t_edge l) /\ forall a b, In (a, b) (map t_edge l) -> In a S /\ eact s a b.
  Definition cluster_work s (S : list nat) (tree done : bool) (w : list comp) : Prop :=
    if tree then all_messages s S (map fst w) /\ done = true
    else exists tr trs, w = tr ++ concat trs /\ some_messages s S (map fst tr) /\ outcome (g_iters s) done trs /\ forall x, In x trs -> all_messages s S (map fst x).
  (** the propagation in a cluster: its nodes, whether it is a tree, whether the
      messages settled, the messages computed *)
  Record cwork := mkCW { cw_nodes : list nat; cw_tree : bool; cw_done : bool; cw_msgs : list comp }.

  Lemma all_keeps s s' S l : keeps H s s' -> (all_messages s' S l <-> all_messages s S l).
  Proof. intros K. unfold all_messages. split; intros [A B]; split; auto; intros a b; rewrite B; [|symmetry]; (split; intros [I E]; split; auto; apply (keeps_eact H _ _ a b K); auto). Qed.
  Lemma some_keeps s s' S l : keeps H s s' -> some_messages s' S l -> some_messages s S l.
  Proof. intros K [A B]. split; auto. intros a b I. destruct (B a b I) as [J E]. split; auto. apply (keeps_eact H _ _ a b K); auto. Qed.
  Lemma work_keeps s s' S t d w : keeps H s s' -> cluster_work s' S t d w -> cluster_work s S t d w.
  Proof.
    intros K. unfold cluster_work. destruct t. intros [Q ->]; split; auto; apply (all_keeps _ _ _ _ K); auto. intros (tr & trs & -> & A & B & C). exists tr, trs. splits; auto. eapply some_keeps; eauto.
    rewrite (kp_iters _ _ _ K) in B. auto. intros x I. apply (all_keeps _ _ _ _ K). auto.
  Qed.
  Lemma all_perm s S l l' : Permutation l' l -> all_messages s S l -> all_messages s S l'.
  Proof.
    intros P [A B]. assert (PM := Permutation_map t_edge P). split. eapply perm_NoDup; eauto. intros a b. rewrite <- B. split; apply Permutation_in; auto. symmetry; auto.
  Qed.
  Lemma some_sub s S l tr rest : Permutation (tr ++ rest) l -> all_messages s S l -> some_messages s S tr.
  Proof.
    intros P A. apply (all_perm s S l _ P) in A as [A B]. rewrite map_app in A, B. split. eapply NoDup_app_left; eauto. intros a b I. apply B. apply in_or_app; auto.
  Qed.

  Theorem prop_loop_work fs e pool k is : env_ok e -> forall r s r' s', core s fs -> clus s -> prop_loop H e pool k is r s = Ret r' s' ->
    exists ws, Forall2 (fun i w => nth_error (map cl_nodes (g_cl s)) i = Some (cw_nodes w)) is ws /\
      pr_structs r' = pr_structs r ++ map (fun w => (cw_tree w, length (cw_nodes w))) ws /\
      pr_completed r' = pr_completed r && forallb cw_done ws /\
      (forall w, In w ws -> cluster_work s (cw_nodes w) (cw_tree w) (cw_done w) (cw_msgs w)) /\
      forall l s2, work e k l s' s2 -> work e k (flat_map cw_msgs ws ++ l) s s2.
  Proof.
    intros E. induction is as [|i is IH]; intros r s r' s' C CS Q; cbn [prop_loop] in Q.
    - injection Q as <- <-. exists []. simpl. splits; auto. rewrite app_nil_r; auto. rewrite andb_true_r; auto. intros w [].
    - pose proof (prepare_keeps H fs e i s E C CS) as K1. destruct (prepare H e i s) as [[] s1| | | |] eqn:E1; try discriminate. simpl in K1. cbn [obind] in Q.
      assert (C1 : core s1 fs) by (eapply keeps_core; eauto). assert (CS1 : clus s1) by (eapply keeps_clus; eauto).
      destruct (get_cl s1 i) as [cl| | | |] eqn:Ec; try discriminate. cbn [lift obind] in Q.
      assert (Hi : nth_error (g_cl s1) i = Some cl). { unfold get_cl, vget in Ec. destruct (nth_error (g_cl s1) i); congruence. }
      assert (Hn : nth_error (map cl_nodes (g_cl s)) i = Some (cl_nodes cl)). { rewrite <- (kp_cl _ _ _ K1), nth_error_map, Hi. auto. }
      pose proof (message_passing_keeps H fs e pool k i s1 C1) as K2. unfold message_passing in *. rewrite Ec in Q, K2. cbn [lift obind] in Q, K2.
      destruct (cl_topo cl) as [ts|] eqn:Et; [|discriminate]. assert (TO : topo_ok s1 (cl_nodes cl) ts) by (eapply cs_topo; eauto; eapply nth_error_In; eauto).
      assert (AM : all_messages s1 (cl_nodes cl) ts) by (split; apply TO).
      destruct (mp_loop H (length ts) e pool k ts s1) as [tree s2| | | |] eqn:E2; try discriminate. simpl in K2. cbn [obind] in Q.
      assert (C2 : core s2 fs) by (eapply keeps_core; eauto). assert (CS2 : clus s2) by (eapply keeps_clus; eauto).
      destruct (mp_trace H e pool k _ E _ _ _ _ E2) as (tr & rest & P & CT & B).
      assert (K12 : keeps H s s2) by (eapply keeps_trans; eauto).
      destruct tree.
      + destruct (IH _ _ _ _ C2 CS2 Q) as (ws & F & St & DN & W & R). exists (mkCW (cl_nodes cl) true true tr :: ws). splits.
        * constructor; auto. eapply Forall2_imp; [|exact F]. simpl. intros a b. rewrite (kp_cl _ _ _ K12). auto.
        * rewrite St. simpl. rewrite <- app_assoc. auto.
        * rewrite DN. auto.
        * intros w [<-|I]; simpl. split; auto. apply (all_keeps _ _ _ _ K1). apply (all_perm s1 _ ts); auto. rewrite B, app_nil_r in P by auto. auto. eapply work_keeps; eauto.
        * intros l x X. simpl. rewrite <- app_assoc. eapply W_prepare; eauto. eapply work_computes; eauto.
      + pose proof (loopy_propagate_keeps H fs e pool k i s2 C2) as K3. unfold loopy_propagate in *.
        assert (GC : get_cl s2 i = Ok cl).
        { assert (FC : forall l s s', computes H k l s s' -> g_cl s' = g_cl s).
          { clear. induction l as [|t l IH]; simpl; intros s s' Q. subst; auto. destruct Q as (s1 & U & Q). rewrite (IH _ _ Q). apply update_message_ret in U as (x & _ & U). apply upd_write_frame in U as (F & _). apply F. }
          unfold get_cl. rewrite (FC _ _ _ CT). exact Ec. }
        rewrite GC in Q, K3. cbn [lift obind] in Q, K3. destruct (set_ones e cl s2) as [[] s3| | | |] eqn:E3; try discriminate. cbn [obind] in Q, K3. rewrite Et in Q, K3.
        destruct (loopy_order_ok pool ts) as (bs & Eb & Pb). rewrite Eb in Q, K3. cbn [lift obind] in Q, K3.
        pose proof (set_ones_keeps H fs e cl s2 C2) as KO. rewrite E3 in KO. simpl in KO.
        destruct (loopy_iter H (g_iters s3) e pool k bs s3) as [done s4| | | |] eqn:E4; try discriminate. simpl in K3. cbn [obind] in Q.
        assert (C4 : core s4 fs) by (eapply keeps_core; eauto). assert (CS4 : clus s4) by (eapply keeps_clus; eauto).
        destruct (iter_trace OK H e pool k bs _ E _ _ _ E4) as (trs & L & PT & CI).
        destruct (IH _ _ _ _ C4 CS4 Q) as (ws & F & St & DN & W & R). assert (K14 : keeps H s s4) by (eapply keeps_trans; eauto).
        exists (mkCW (cl_nodes cl) false done (tr ++ concat trs) :: ws). splits.
        * constructor; auto. eapply Forall2_imp; [|exact F]. simpl. intros a b. rewrite (kp_cl _ _ _ K14). auto.
        * rewrite St. simpl. rewrite <- app_assoc. auto.
        * rewrite DN. simpl. rewrite andb_assoc. auto.
        * intros w [<-|I]; simpl. 2:{ eapply work_keeps; eauto. } exists tr, trs. split; auto. split. { apply (some_keeps s s1); auto. eapply some_sub; eauto. } split. { rewrite (kp_iters _ _ _ KO), (kp_iters _ _ _ K12) in L. auto. }
          intros x I. apply (all_keeps _ _ _ _ K1). apply (all_perm s1 _ ts); auto. rewrite (PT x I). auto.
        * intros l x X. simpl. rewrite <- !app_assoc. eapply W_prepare; eauto. eapply work_computes; eauto. eapply W_ones; eauto. eapply work_computes; eauto.
  Qed.
  Theorem propagate_work e k s s' : env_ok e -> inv H s -> would_need s k = true -> propagate H e k s = Ret tt s' ->
    exists r ws, g_last s' = Some r /\ map cw_nodes ws = map cl_nodes (g_cl s) /\
      pr_structs r = map (fun w => (cw_tree w, length (cw_nodes w))) ws /\
      pr_completed r = forallb cw_done ws /\
      (forall w, In w ws -> cluster_work s (cw_nodes w) (cw_tree w) (cw_done w) (cw_msgs w)) /\
      work e k (flat_map cw_msgs ws) s s'.
  Proof.
    intros E [C CS] Wn. unfold propagate. rewrite Wn. simpl. destruct (g_pool s) as [pool|]; [|discriminate]. intros Q.
    pose proof (reset_messages_keeps H (g_all s) e s C) as K1. destruct (reset_messages e s) as [[] s1| | | |] eqn:E1; try discriminate. simpl in K1. cbn [obind] in Q.
    assert (C1 : core s1 (g_all s)) by (eapply keeps_core; eauto). assert (CS1 : clus s1) by (eapply keeps_clus; eauto).
    destruct (prop_loop H e pool k (seq 0 (length (g_cl s1))) (mkPR k true []) s1) as [r s2| | | |] eqn:E2; try discriminate. cbn [obind] in Q. inversion Q; subst.
    destruct (prop_loop_work _ e pool k _ E _ _ _ _ C1 CS1 E2) as (ws & F & St & DN & W & R). exists r, ws. splits; auto.
    - assert (Z : forall (l : list (list nat)) ws, Forall2 (fun i w => nth_error l i = Some (cw_nodes w)) (seq 0 (length l)) ws -> map cw_nodes ws = l).
      { clear. intros l. assert (G : forall l2 l1 ws, l = l1 ++ l2 -> Forall2 (fun i w => nth_error l i = Some (cw_nodes w)) (seq (length l1) (length l2)) ws -> map cw_nodes ws = l2).
        { induction l2 as [|x l2 IH]; simpl; intros l1 ws E F; inversion F as [|? w ? ws' Fx Fs]; subst; auto. simpl. rewrite nth_error_app2, Nat.sub_diag in Fx by auto. injection Fx as ->. f_equal.
          apply (IH (l1 ++ [cw_nodes w])). rewrite <- app_assoc. auto. rewrite app_length. simpl. rewrite Nat.add_1_r. auto. }
        intros ws F. apply (G l [] ws); auto. }
      rewrite <- (kp_cl _ _ _ K1). apply Z. rewrite map_length. exact F.
    - intros w I. eapply work_keeps; eauto.
    - eapply W_reset; eauto. rewrite <- (app_nil_r (flat_map cw_msgs ws)). apply R. constructor.
  Qed.
End Work.
