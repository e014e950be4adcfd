(** Groups and factors a user can obtain through the public API, and the
    invariants they satisfy. *)
From Coq Require Import String List Arith Bool Lia Permutation.
From Verif Require Import Res Num Categoric Combs Func FuncProofs GroupProofs FactorProofs.
Import ListNotations.
Open Scope nat_scope.

(** a variable returned by its constructor *)
Definition made (v : var) : Prop := exists id size name, make_variable id size name = Ok v.

Lemma made_pos v : made v -> 0 < vsize v.
Proof.
  intros (id & s & n & H). unfold make_variable in H.
  destruct (String.length n =? 0); [discriminate|].
  destruct (Nat.eqb_spec s 0); [discriminate|]. injection H as <-. simpl. lia.
Qed.

(** a group built by the constructors, [add] and [replaceVariables] *)
Inductive built_group : group -> Prop :=
| bg_ctor : forall soup g, Forall made soup -> group_ctor soup = Ok g -> built_group g
| bg_single : forall v, made v -> built_group (group_single v)
| bg_variadic : forall a b rest g, made a -> made b -> Forall made rest ->
    group_variadic a b rest = Ok g -> built_group g
| bg_add : forall g v g', built_group g -> made v -> group_add g v = Ok g' -> built_group g'
| bg_replace : forall g new g', built_group g -> Forall made new -> group_replace g new = Ok g' -> built_group g'.

Lemma rfold_group_add_wf l : forall g g', wf_group g -> rfold group_add l g = Ok g' ->
  wf_group g' /\ g_soup g' = g_soup g ++ l.
Proof.
  induction l as [|v l IH]; simpl; intros g g' W H.
  - injection H as <-. rewrite app_nil_r. auto.
  - apply rbind_ok in H as (g1 & H1 & H2).
    pose proof (group_add_wf _ _ _ W H1) as W1. destruct (IH _ _ W1 H2) as [W2 E]. split; auto.
    rewrite E. unfold group_add in H1. destruct (vset_mem (g_set g) v); [discriminate|].
    injection H1 as <-. simpl. rewrite <- app_assoc. reflexivity.
Qed.

Lemma empty_group_wf : wf_group (mkGroup [] []).
Proof. split; simpl; constructor. Qed.

Lemma built_group_inv g : built_group g -> wf_group g /\ g_soup g <> [] /\ Forall made (g_soup g).
Proof.
  induction 1 as [soup g Hm H|v Hm|a b rest g Ha Hb Hr H|g v g' Hb IH Hm H|g new g' Hb IH Hm H].
  - pose proof (group_ctor_wf _ _ H) as W. apply group_ctor_ok in H as (Hne & _ & ->). auto.
  - split. apply group_single_wf. split. discriminate. constructor; auto.
  - unfold group_variadic in H. destruct (rfold_group_add_wf _ _ _ empty_group_wf H) as [W E].
    simpl in E. split; auto. rewrite E. split. discriminate. auto.
  - destruct IH as (W & Hne & Hms). split. eapply group_add_wf; eauto.
    unfold group_add in H. destruct (vset_mem (g_set g) v); [discriminate|]. injection H as <-. simpl.
    split. destruct (g_soup g); simpl; discriminate. apply Forall_app. auto.
  - destruct IH as (W & Hne & Hms). apply group_replace_ok in H as (Hn & Hs & ->). simpl. split.
    split; simpl; auto. split; auto. intros ->. destruct (g_soup g); simpl in Hs; try discriminate. auto.
Qed.

Lemma made_sizes vs : Forall made vs -> Forall (lt 0) (map vsize vs).
Proof. induction 1; simpl; constructor; auto. apply made_pos; auto. Qed.

Section Api.
  Context {N : num} (OK : num_ok N).
  Implicit Types f : func N.

  (** a [Factor] or [FactorExponential] object built through the public API *)
  Inductive built : func N -> Prop :=
  | b_ctor : forall g, built_group g -> built (func_ctor g)
  | b_set : forall f c x f', built f -> f_exp f = None -> m_set f c x = Ok f' -> built f'
  | b_clear : forall f, built f -> f_exp f = None -> built (f_clear f)
  | b_replace : forall f new f', built f -> Forall made new -> m_replace f new = Ok f' -> built f'
  | b_copy : forall f, built f -> f_exp f = None -> built (factor_copy f)
  | b_clone : forall f f', built f -> factor_clone_transformed f = Ok f' -> built f'
  | b_corr : forall g f, built_group g -> factor_correlated g = Ok f -> built f
  | b_anti : forall g f, built_group g -> factor_anticorrelated g = Ok f -> built f
  | b_merge : forall ord fs f, (forall l, Permutation (ord l) l) ->
      (forall g, In g fs -> built g) -> factor_merge ord fs = Ok f -> built f
  | b_perm : forall f g f', built f -> f_exp f = None -> built_group g -> clone_permuted f g = Ok f' -> built f'
  | b_exp : forall f w f', built f -> f_exp f = None -> exp_ctor f w = Ok f' -> built f'
  | b_weight : forall f w f', built f -> exp_set_weight f w = Ok f' -> built f'
  | b_expcopy : forall f f', built f -> exp_copy f = Ok f' -> built f'.

  Definition nonneg f : Prop := forall c, valid_comb (fsizes f) c -> (n0 <= fimg f c)%num.

  (** invariant of the factors *)
  Definition good f : Prop := wf_factor f /\ Forall made (f_vars f) /\ nonneg f.
  Definition goods (H : nat -> func N) : Prop := forall k, good (H k).

  (** the part of the invariant that does not depend on the values: it holds
      without the laws of the numbers *)
  Definition solid f : Prop := wf_factor f /\ Forall made (f_vars f).
  Definition solids (H : nat -> func N) : Prop := forall k, solid (H k).
  Lemma good_solid f : good f -> solid f.
  Proof. intros (W & M & _). split; auto. Qed.
  Lemma goods_solids (H : nat -> func N) : goods H -> solids H.
  Proof. intros G k. apply good_solid, G. Qed.

  Lemma fval_nonneg f c : good f -> valid_comb (fsizes f) c -> (n0 <= fval f c)%num.
  Proof.
    intros (_ & _ & H) V. unfold fval, transform. destruct (f_exp f).
    - apply (nlt_le OK). apply ok_exp; auto.
    - apply H; auto.
  Qed.

  Lemma comb_in_range_spec vs c : length c = length vs ->
    (comb_in_range vs c = true <-> valid_comb (map vsize vs) c).
  Proof.
    revert c; induction vs as [|v vs IH]; intros [|x c] HL; simpl in *; try discriminate.
    - split; auto. constructor.
    - destruct (Nat.leb_spec (vsize v) x).
      + split; [discriminate|]. intros H0. inversion H0; subst. lia.
      + rewrite IH by lia. split; intros H0.
        * constructor; auto.
        * inversion H0; auto.
  Qed.

  (** exact behaviour of [Mutable::set] *)
  Lemma m_set_spec f c x : wf_func f ->
    ((x < n0)%num \/ ~ valid_comb (fsizes f) c) /\ m_set f c x = Throw \/
    ((n0 <= x)%num /\ valid_comb (fsizes f) c /\
     exists f', m_set f c x = Ok f' /\ wf_func f' /\ f_group f' = f_group f /\ f_exp f' = f_exp f /\
       forall d, valid_comb (fsizes f) d -> fimg f' d = if list_eqb c d then x else fimg f d).
  Proof.
    intros W. unfold m_set. destruct (nltb x n0) eqn:E; auto.
    destruct (Nat.eqb_spec (length c) (length (f_vars f))) as [HL|HL]; simpl.
    2:{ left. split; auto. right. intros V. apply valid_length in V. rewrite fsizes_length in V. auto. }
    pose proof (comb_in_range_spec (f_vars f) c HL) as Q.
    destruct (comb_in_range (f_vars f) c).
    - right. split; auto. assert (V : valid_comb (fsizes f) c) by (apply Q; auto). split; auto.
      apply f_set_ok; auto.
    - left. split; auto. right. intros V. apply Q in V. discriminate.
  Qed.

  Lemma good_intro_group f g : wf_func f -> f_group f = g -> wf_group g -> Forall made (g_soup g) -> nonneg f -> good f.
  Proof. intros W E WG M H. subst. split; [split|]; auto. Qed.

  Lemma solid_intro_group f g : wf_func f -> f_group f = g -> wf_group g -> Forall made (g_soup g) -> solid f.
  Proof. intros W E WG M. subst. split; [split|]; auto. Qed.
  Lemma built_solid f : built f -> solid f.
  Proof.
    induction 1 as [g Hg|f c x f' Hb IH Hx H|f Hb IH Hx|f new f' Hb IH Hm H|f Hb IH Hx
      |f f' Hb IH H|g f Hg H|g f Hg H|ord fs f Hord Hb IH H|f g f' Hb IH Hx Hg H
      |f w f' Hb IH Hx H|f w f' Hb IH H|f f' Hb IH H].
    - destruct (built_group_inv g Hg) as (WG & Hne & Hm). eapply solid_intro_group with (g := g); auto.
      apply func_ctor_wf; auto. apply made_sizes; auto.
    - destruct IH as ((W & WG) & Hm).
      destruct (m_set_spec f c x W) as [[_ E]|(Hx0 & V & f1 & E & W1 & G1 & X1 & I1)]; [congruence|].
      rewrite E in H. injection H as <-. eapply solid_intro_group; eauto.
    - destruct IH as ((W & WG) & Hm). eapply solid_intro_group with (g := f_group f); auto. apply f_clear_wf; auto.
    - destruct IH as ((W & WG) & Hms). unfold m_replace in H. apply rbind_ok in H as (g & Hg & H).
      injection H as <-. apply group_replace_ok in Hg as (ND & HS & ->).
      assert (ES : sizes_of (mkGroup new new) = sizes_of (f_group f)) by exact HS.
      eapply solid_intro_group with (g := mkGroup new new); auto.
      + destruct W as [Wi Wn Ws Wd]. split; simpl.
        * rewrite Wi. unfold make_info. simpl. rewrite HS. reflexivity.
        * unfold f_vars; simpl. intros ->. unfold f_vars in Wn. destruct (g_soup (f_group f)); simpl in HS; congruence.
        * rewrite ES. auto.
        * unfold wf_data in *. rewrite ES. auto.
      + split; simpl; auto.
    - destruct IH as ((W & WG) & Hm). destruct (factor_copy_ok f W) as (W' & G' & X' & I'). eapply solid_intro_group; eauto.
    - destruct IH as ((W & WG) & Hm). destruct (factor_clone_transformed_ok f W) as (f1 & E & W' & G' & X' & I').
      rewrite E in H. injection H as <-. eapply solid_intro_group; eauto.
    - destruct (built_group_inv g Hg) as (WG & Hne & Hm).
      destruct (factor_correlated_spec (N:=N) g Hne (made_sizes _ Hm)) as [(_ & f1 & E & W' & G' & X' & I')|[_ E]]; [|congruence].
      rewrite E in H. injection H as <-. eapply solid_intro_group; eauto.
    - destruct (built_group_inv g Hg) as (WG & Hne & Hm).
      destruct (factor_anticorrelated_spec (N:=N) g Hne (made_sizes _ Hm)) as [(_ & f1 & E & W' & G' & X' & I')|[_ E]]; [|congruence].
      rewrite E in H. injection H as <-. eapply solid_intro_group; eauto.
    - destruct fs as [|f0 fs0] eqn:Efs.
      { exfalso. unfold factor_merge, gather_variables in H. simpl in H.
        assert (E : ord [] = []). { specialize (Hord []). symmetry in Hord. apply Permutation_nil in Hord. auto. }
        rewrite E in H. discriminate. }
      rewrite <- Efs in *. assert (Hne : fs <> []) by congruence. clear Efs f0 fs0.
      assert (WF : Forall (fun f => wf_func f /\ NoDup (map vkey (f_vars f))) fs).
      { apply Forall_forall. intros g Hg. destruct (IH g Hg) as ((W & [ND _]) & _). auto. }
      destruct (classic_conflict (flat_map f_vars fs)) as [C|C].
      { rewrite factor_merge_throw in H; auto. discriminate. }
      destruct (factor_merge_solid ord fs Hord Hne WF C) as (f1 & E & WF1 & X1 & V1).
      rewrite E in H. injection H as <-. split; auto.
      apply Forall_forall. intros v Hv. apply V1 in Hv as (g & Hg & Hv).
      destruct (IH g Hg) as (_ & Hm). rewrite Forall_forall in Hm. auto.
    - destruct IH as (WF & Hm). destruct (built_group_inv g Hg) as (WG & Hne & Hmg).
      destruct (Permutation_dec (g_soup g) (f_vars f)) as [P|P].
      2:{ rewrite clone_permuted_throw in H; auto. discriminate. }
      destruct (clone_permuted_ok f g WF WG P) as (f1 & E & (W1 & WG1) & G1 & X1 & I1).
      rewrite E in H. injection H as <-. eapply solid_intro_group; eauto.
    - destruct IH as ((W & WG) & Hm). destruct (exp_ctor_ok f w W) as (e & E & W1 & G1 & X1 & I1).
      rewrite E in H. injection H as <-. eapply solid_intro_group; eauto.
    - destruct IH as ((W & WG) & Hm). unfold exp_set_weight in H. destruct (f_exp f); [|discriminate].
      injection H as <-. eapply solid_intro_group with (g := f_group f); auto. destruct W; split; auto.
    - destruct IH as ((W & WG) & Hm). unfold exp_copy in H. apply rbind_ok in H as (w & _ & H).
      destruct (exp_ctor_ok f w W) as (e & E & W1 & G1 & X1 & I1).
      rewrite E in H. injection H as <-. eapply solid_intro_group; eauto.
  Qed.

  Lemma built_good f : built f -> good f.
  Proof.
    induction 1 as [g Hg|f c x f' Hb IH Hx H|f Hb IH Hx|f new f' Hb IH Hm H|f Hb IH Hx
      |f f' Hb IH H|g f Hg H|g f Hg H|ord fs f Hord Hb IH H|f g f' Hb IH Hx Hg H
      |f w f' Hb IH Hx H|f w f' Hb IH H|f f' Hb IH H].
    - destruct (built_group_inv g Hg) as (WG & Hne & Hm).
      eapply good_intro_group with (g := g); auto.
      + apply func_ctor_wf; auto. apply made_sizes; auto.
      + intros c _. rewrite func_ctor_img. apply (nle_refl OK).
    - destruct IH as ((W & WG) & Hm & Hn).
      destruct (m_set_spec f c x W) as [[_ E]|(Hx0 & V & f1 & E & W1 & G1 & X1 & I1)]; [congruence|].
      rewrite E in H. injection H as <-.
      eapply good_intro_group; eauto. intros d Hd. unfold fsizes in Hd. rewrite G1 in Hd.
      rewrite I1 by auto. destruct (list_eqb c d); auto.
    - destruct IH as ((W & WG) & Hm & Hn). eapply good_intro_group with (g := f_group f); auto.
      apply f_clear_wf; auto. intros d _. rewrite f_clear_img. apply (nle_refl OK).
    - destruct IH as ((W & WG) & Hms & Hn). unfold m_replace in H. apply rbind_ok in H as (g & Hg & H).
      injection H as <-. apply group_replace_ok in Hg as (ND & HS & ->).
      assert (ES : sizes_of (mkGroup new new) = sizes_of (f_group f)) by exact HS.
      eapply good_intro_group with (g := mkGroup new new); auto.
      + destruct W as [Wi Wn Ws Wd]. split; simpl.
        * rewrite Wi. unfold make_info. simpl. rewrite HS. reflexivity.
        * unfold f_vars; simpl. intros ->. unfold f_vars in Wn. destruct (g_soup (f_group f)); simpl in HS; congruence.
        * rewrite ES. auto.
        * unfold wf_data in *. rewrite ES. auto.
      + split; simpl; auto.
      + intros c V. specialize (Hn c). unfold fimg, fsizes in *. cbn [f_group f_data] in *.
        rewrite ES in *. auto.
    - destruct IH as ((W & WG) & Hm & Hn). destruct (factor_copy_ok f W) as (W' & G' & X' & I').
      eapply good_intro_group; eauto.
    - pose proof IH as IH'. destruct IH as ((W & WG) & Hm & Hn).
      destruct (factor_clone_transformed_ok f W) as (f1 & E & W' & G' & X' & I').
      rewrite E in H. injection H as <-. eapply good_intro_group; eauto.
      intros d Hd. assert (V : valid_comb (fsizes f) d) by (unfold fsizes in *; congruence).
      rewrite I' by auto. apply fval_nonneg; auto.
    - destruct (built_group_inv g Hg) as (WG & Hne & Hm).
      destruct (factor_correlated_spec (N:=N) g Hne (made_sizes _ Hm)) as [(_ & f1 & E & W' & G' & X' & I')|[_ E]]; [|congruence].
      rewrite E in H. injection H as <-. eapply good_intro_group; eauto.
      intros d Hd. unfold fsizes in Hd. rewrite G' in Hd. destruct (I' d Hd) as [I1 I2].
      assert (D : all_equal d \/ ~ all_equal d).
      { destruct d as [|x d]. left. intros ? ? []. destruct (forallb (Nat.eqb x) (x :: d)) eqn:EE.
        - left. rewrite forallb_forall in EE. intros a b Ha Hb. apply EE in Ha, Hb.
          apply Nat.eqb_eq in Ha, Hb. congruence.
        - right. intros A. assert (forallb (Nat.eqb x) (x :: d) = true); [|congruence].
          apply forallb_forall. intros y Hy. apply Nat.eqb_eq. apply A; auto. left; auto. }
      destruct D as [D|D]; [rewrite I1|rewrite I2]; auto. apply (nlt_le OK), (nlt_0_1 OK). apply (nle_refl OK).
    - destruct (built_group_inv g Hg) as (WG & Hne & Hm).
      destruct (factor_anticorrelated_spec (N:=N) g Hne (made_sizes _ Hm)) as [(_ & f1 & E & W' & G' & X' & I')|[_ E]]; [|congruence].
      rewrite E in H. injection H as <-. eapply good_intro_group; eauto.
      intros d Hd. unfold fsizes in Hd. rewrite G' in Hd. destruct (I' d Hd) as [I1 I2].
      assert (D : all_equal d \/ ~ all_equal d).
      { destruct d as [|x d]. left. intros ? ? []. destruct (forallb (Nat.eqb x) (x :: d)) eqn:EE.
        - left. rewrite forallb_forall in EE. intros a b Ha Hb. apply EE in Ha, Hb.
          apply Nat.eqb_eq in Ha, Hb. congruence.
        - right. intros A. assert (forallb (Nat.eqb x) (x :: d) = true); [|congruence].
          apply forallb_forall. intros y Hy. apply Nat.eqb_eq. apply A; auto. left; auto. }
      destruct D as [D|D]; [rewrite I1|rewrite I2]; auto. apply (nle_refl OK). apply (nlt_le OK), (nlt_0_1 OK).
    - destruct fs as [|f0 fs0] eqn:Efs.
      { exfalso. unfold factor_merge, gather_variables in H. simpl in H.
        assert (E : ord [] = []). { specialize (Hord []). symmetry in Hord. apply Permutation_nil in Hord. auto. }
        rewrite E in H. discriminate. }
      rewrite <- Efs in *. assert (Hne : fs <> []) by congruence. clear Efs f0 fs0.
      assert (WF : Forall wf_factor fs) by (apply Forall_forall; intros g Hg; apply (IH g Hg)).
      destruct (classic_conflict (flat_map f_vars fs)) as [C|C].
      { rewrite factor_merge_throw in H; auto. discriminate. }
      destruct (factor_merge_ok OK ord fs Hord Hne WF C) as (f1 & E & (W1 & WG1) & X1 & V1 & I1).
      rewrite E in H. injection H as <-. split; [split; auto|]. split.
      + apply Forall_forall. intros v Hv. apply V1 in Hv as (g & Hg & Hv).
        destruct (IH g Hg) as (_ & Hm & _). rewrite Forall_forall in Hm. auto.
      + intros c V. assert (ND : NoDup (f_vars f1)) by (apply NoDup_vkey_NoDup; apply WG1).
        destruct (valid_comb_assignment _ _ ND V) as (a & Pa & ->). rewrite I1 by auto.
        apply (prodL_nonneg OK). intros g Hg. apply fval_nonneg; auto.
        apply proper_valid. intros v Hv. apply Pa. apply V1. eauto.
    - destruct IH as (WF & Hm & Hn). destruct (built_group_inv g Hg) as (WG & Hne & Hmg).
      destruct (Permutation_dec (g_soup g) (f_vars f)) as [P|P].
      2:{ rewrite clone_permuted_throw in H; auto. discriminate. }
      destruct (clone_permuted_ok f g WF WG P) as (f1 & E & (W1 & WG1) & G1 & X1 & I1).
      rewrite E in H. injection H as <-. eapply good_intro_group; eauto.
      intros c V. unfold fsizes in V. rewrite G1 in V.
      assert (ND : NoDup (g_soup g)) by (apply NoDup_vkey_NoDup; apply WG).
      destruct (valid_comb_assignment _ _ ND V) as (a & Pa & ->).
      assert (Pf : proper a (f_vars f)).
      { intros v Hv. apply Pa. eapply Permutation_in; [symmetry; eauto|auto]. }
      rewrite I1 by auto. apply Hn. apply (proper_valid a (f_vars f)); auto.
    - destruct IH as ((W & WG) & Hm & Hn). destruct (exp_ctor_ok f w W) as (e & E & W1 & G1 & X1 & I1).
      rewrite E in H. injection H as <-. eapply good_intro_group; eauto.
      intros c V. unfold fsizes in V. rewrite G1 in V. rewrite I1 by auto. auto.
    - destruct IH as ((W & WG) & Hm & Hn). unfold exp_set_weight in H. destruct (f_exp f); [|discriminate].
      injection H as <-. eapply good_intro_group with (g := f_group f); auto. destruct W; split; auto.
    - destruct IH as ((W & WG) & Hm & Hn). unfold exp_copy in H. apply rbind_ok in H as (w & _ & H).
      destruct (exp_ctor_ok f w W) as (e & E & W1 & G1 & X1 & I1).
      rewrite E in H. injection H as <-. eapply good_intro_group; eauto.
      intros c V. unfold fsizes in V. rewrite G1 in V. rewrite I1 by auto. auto.
  Qed.
  Lemma built_solids (H : nat -> func N) : (forall k, built (H k)) -> solids H.
  Proof. intros B k. apply built_solid, B. Qed.
  Lemma built_goods (H : nat -> func N) : (forall k, built (H k)) -> goods H.
  Proof. intros B k. apply built_good, B. Qed.
End Api.
Coercion goods_solids : goods >-> solids.
