(** The log-likelihood of a training set and its derivatives, over the reals *)
From Coq Require Import String List Arith Bool Lia Permutation Reals Lra.
From Verif Require Import Res Num RealNum Categoric Combs Func FuncProofs Train GraphSpec BeliefSpec TrainSpec Tree BigOp Gradient.
Import ListNotations.
Open Scope nat_scope.

(** mean of the logarithm of the probability of the combinations *)
Definition loglik (F : nat -> func RNum) (A : spec) (vs : list var) (samples : list (list nat)) : R :=
  mean (N:=RNum) vs samples (fun x => ln (weight F A x / mass (weight F A) A (fun _ => true)))%R.

Section Derive.
  Ltac rring := match goal with |- @eq _ ?a ?b => change (@eq R a b) end; ring.
  Lemma Rsum_cons {B} (f : B -> R) b l : sumL (N:=RNum) f (b :: l) = (f b + sumL (N:=RNum) f l)%R.
  Proof. reflexivity. Qed.
  Lemma Rprod_cons {B} (f : B -> R) b l : prodL (N:=RNum) f (b :: l) = (f b * prodL (N:=RNum) f l)%R.
  Proof. reflexivity. Qed.

  Lemma derive_sum {B} (f : B -> R -> R) (d : B -> R) l t : (forall b, In b l -> derivable_pt_lim (f b) t (d b)) ->
    derivable_pt_lim (fun t => sumL (N:=RNum) (fun b => f b t) l) t (sumL (N:=RNum) d l).
  Proof.
    induction l as [|b l IH]; intros D.
    - apply (derivable_pt_lim_const 0%R t).
    - rewrite Rsum_cons. apply (derivable_pt_lim_plus (f b) (fun t => sumL (N:=RNum) (fun b => f b t) l)). apply D; left; auto. apply IH. intros; apply D; right; auto.
  Qed.
  (** derivative of K exp(t a) *)
  Lemma derive_exp K a t : derivable_pt_lim (fun t => K * exp (t * a))%R t (K * exp (t * a) * a)%R.
  Proof.
    replace (K * exp (t * a) * a)%R with (K * (exp (t * a) * (1 * a + t * 0)))%R by ring.
    apply (derivable_pt_lim_scal (fun t => exp (t * a))%R).
    apply (derivable_pt_lim_comp (fun t => t * a)%R exp).
    - apply (derivable_pt_lim_mult id (fct_cte a)). apply derivable_pt_lim_id. apply derivable_pt_lim_const.
    - apply derivable_pt_lim_exp.
  Qed.

  Variable F : nat -> func RNum.
  Variable A : spec.
  Variable c : list nat.
  Hypothesis ND : NoDup (sp_facs A).
  Hypothesis NC : NoDup c.
  Hypothesis IC : forall f, In f c -> In f (sp_facs A).
  Let inb f := existsb (Nat.eqb f) c.
  Lemma inb_spec f : inb f = true <-> In f c.
  Proof.
    unfold inb. rewrite existsb_exists. split. intros (x & Ix & E). apply Nat.eqb_eq in E. subst; auto. intros J. exists f. split; auto. apply Nat.eqb_refl.
  Qed.

  Definition rest (x : asg) : R := prodL (N:=RNum) (fun f => if inb f then 1%R else fval (F f) (map (val x) (f_vars (F f)))) (sp_facs A).
  Lemma weight_split (F' : nat -> func RNum) t x :
    (forall f, f_vars (F' f) = f_vars (F f)) ->
    (forall f l, In f c -> fval (F' f) l = exp (t * fimg (F f) l)) ->
    (forall f l, In f (sp_facs A) -> ~ In f c -> fval (F' f) l = fval (F f) l) ->
    weight F' A x = (rest x * exp (t * features F c x))%R.
  Proof.
    intros EV EI EO. unfold weight, rest.
    assert (FE : features F c x = sumL (N:=RNum) (fun f => if inb f then feature F f x else 0%R) (sp_facs A)).
    { unfold features. assert (P : Permutation c (filter inb (sp_facs A))).
      { apply NoDup_Permutation; auto. apply NoDup_filter; auto. intros f. rewrite filter_In, inb_spec. split; intros Q; [split; auto|tauto]. }
      rewrite (sumL_perm RNum_ok _ _ _ P). clear. induction (sp_facs A) as [|f l IH]; auto. simpl filter. rewrite Rsum_cons. destruct (inb f); [rewrite Rsum_cons, IH|rewrite IH]; auto.
      symmetry. apply Rplus_0_l. }
    rewrite FE. clear FE. assert (G : forall l, (forall f, In f l -> In f (sp_facs A)) ->
      prodL (N:=RNum) (fun f => fval (F' f) (map (val x) (f_vars (F' f)))) l =
      (prodL (N:=RNum) (fun f => if inb f then 1%R else fval (F f) (map (val x) (f_vars (F f)))) l *
       exp (t * sumL (N:=RNum) (fun f => if inb f then feature F f x else 0%R) l))%R).
    { induction l as [|f l IH]; intros S. unfold prodL, sumL. simpl. rewrite Rmult_0_r, exp_0. rring.
      rewrite !Rprod_cons, Rsum_cons, IH by (intros; apply S; right; auto). destruct (inb f) eqn:E.
      - rewrite EI by (apply inb_spec; auto). rewrite EV. fold (feature F f x). rewrite Rmult_plus_distr_l, exp_plus. rring.
      - rewrite EO; [|apply S; left; auto|]. rewrite EV, Rplus_0_l. rring. intros J. apply inb_spec in J. congruence. }
    apply G. auto.
  Qed.

  Variable w0 : R.
  Variable FT : R -> nat -> func RNum.
  Hypothesis HV : forall t f, f_vars (FT t f) = f_vars (F f).
  Hypothesis HI : forall t f l, In f c -> fval (FT t f) l = exp (t * fimg (F f) l).
  Hypothesis HO : forall t f l, In f (sp_facs A) -> ~ In f c -> fval (FT t f) l = fval (F f) l.
  Hypothesis H0 : forall f l, In f c -> fval (F f) l = exp (w0 * fimg (F f) l).

  Lemma weight_t t x : weight (FT t) A x = (rest x * exp (t * features F c x))%R.
  Proof. apply weight_split; auto. Qed.
  Lemma weight_0 x : weight F A x = (rest x * exp (w0 * features F c x))%R.
  Proof. apply weight_split; auto. Qed.

  Lemma derive_mass : derivable_pt_lim (fun t => mass (weight (FT t) A) A (fun _ => true)) w0
    (sumL (N:=RNum) (fun x => if agrees A x then (weight F A x * features F c x)%R else 0%R) (all_asg (sp_vars A))).
  Proof.
    unfold mass. apply (derive_sum (fun x t => if agrees A x && true then weight (FT t) A x else 0%R)). intros x _. rewrite andb_true_r. destruct (agrees A x).
    - rewrite weight_0. apply derivable_pt_lim_ext with (f := fun t => (rest x * exp (t * features F c x))%R). intros t. rewrite weight_t. auto. apply derive_exp.
    - apply (derivable_pt_lim_const 0%R w0).
  Qed.
  Lemma mass_0 : mass (weight (FT w0) A) A (fun _ => true) = mass (weight F A) A (fun _ => true).
  Proof. unfold mass. apply sumL_ext. intros x _. rewrite weight_t, weight_0. auto. Qed.

  Lemma derive_log x : (0 < weight F A x)%R -> (0 < mass (weight F A) A (fun _ => true))%R ->
    derivable_pt_lim (fun t => ln (weight (FT t) A x / mass (weight (FT t) A) A (fun _ => true))%R) w0 (features F c x - expected (weight F A) A (features F c))%R.
  Proof.
    intros PX PM. set (Z := mass (weight F A) A (fun _ => true)) in *.
    set (D := sumL (N:=RNum) (fun x => if agrees A x then (weight F A x * features F c x)%R else 0%R) (all_asg (sp_vars A))).
    assert (E : expected (weight F A) A (features F c) = (D / Z)%R) by reflexivity. rewrite E.
    set (phi := features F c x) in *.
    replace (phi - D / Z)%R with (/ (weight F A x / Z) * ((weight F A x * phi * Z - D * weight F A x) / Rsqr Z))%R.
    2:{ unfold Rsqr. field. lra. }
    apply (derivable_pt_lim_comp (fun t => weight (FT t) A x / mass (weight (FT t) A) A (fun _ => true))%R ln).
    - pose proof (derivable_pt_lim_div (fun t => weight (FT t) A x) (fun t => mass (weight (FT t) A) A (fun _ => true)) w0 (weight F A x * phi)%R D) as Q.
      cbv beta in Q. rewrite mass_0 in Q. assert (W : weight (FT w0) A x = weight F A x) by (rewrite weight_t, weight_0; auto). rewrite W in Q. fold Z in Q.
      apply Q.
      + rewrite weight_0. apply derivable_pt_lim_ext with (f := fun t => (rest x * exp (t * phi))%R). intros t. rewrite weight_t. auto. apply derive_exp.
      + apply derive_mass.
      + lra.
    - rewrite mass_0, weight_t. rewrite weight_0. fold Z. apply derivable_pt_lim_ln. apply Rdiv_lt_0_compat; auto. rewrite <- weight_0. auto.
  Qed.

  Theorem derive_loglik vs samples : samples <> [] -> (forall s, In s samples -> (0 < weight F A (assigned vs s))%R) ->
    (0 < mass (weight F A) A (fun _ => true))%R ->
    derivable_pt_lim (fun t => loglik (FT t) A vs samples) w0 (mean (N:=RNum) vs samples (features F c) - expected (weight F A) A (features F c))%R.
  Proof.
    intros NE PS PM. set (E := expected (weight F A) A (features F c)).
    assert (NZ : nofnat (N:=RNum) (length samples) <> 0%R).
    { apply (nlt_neq' RNum_ok). apply (nofnat_pos RNum_ok). destruct samples; simpl; [congruence|lia]. }
    unfold loglik, mean.
    assert (SE : (sumL (N:=RNum) (fun s => features F c (assigned vs s)) samples / nofnat (N:=RNum) (length samples) - E)%R =
      (sumL (N:=RNum) (fun s => features F c (assigned vs s) - E)%R samples / nofnat (N:=RNum) (length samples))%R).
    { assert (S : sumL (N:=RNum) (fun s => features F c (assigned vs s) - E)%R samples = (sumL (N:=RNum) (fun s => features F c (assigned vs s)) samples - nofnat (N:=RNum) (length samples) * E)%R).
      { clear. induction samples as [|s l IH]. unfold sumL. simpl. rring. rewrite !Rsum_cons, IH. simpl nofnat. change (nadd (n:=RNum)) with Rplus. simpl n1. rring. }
      rewrite S. field. auto. }
    change (nsub (n:=RNum)) with Rminus. change (ndiv (n:=RNum)) with Rdiv. rewrite SE.
    assert (K : forall u : R, (u / nofnat (N:=RNum) (length samples) = / nofnat (N:=RNum) (length samples) * u)%R) by (intros; unfold Rdiv; ring).
    rewrite K. apply derivable_pt_lim_ext with (f := fun t => (/ nofnat (N:=RNum) (length samples) * sumL (N:=RNum) (fun s => ln (weight (FT t) A (assigned vs s) / mass (weight (FT t) A) A (fun _ => true))%R) samples)%R).
    intros t. unfold mult_real_fct. rewrite <- K. auto.
    apply (derivable_pt_lim_scal (fun t => sumL (N:=RNum) (fun s => ln (weight (FT t) A (assigned vs s) / mass (weight (FT t) A) A (fun _ => true))%R) samples)).
    apply (derive_sum (fun s t => ln (weight (FT t) A (assigned vs s) / mass (weight (FT t) A) A (fun _ => true))%R)). intros s J. apply derive_log; auto.
  Qed.
End Derive.
