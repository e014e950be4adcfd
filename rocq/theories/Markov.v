(** Chains with finitely many states: a distribution kept by the moves is the
    limit when all the moves are possible *)
From Coq Require Import String List Arith Bool Lia Permutation Field.
From Verif Require Import Res Num Categoric Combs Func FuncProofs GroupProofs GraphSpec Hist BeliefSpec Sums Gibbs GibbsSpec GibbsProofs GibbsChain MarkovSpec.
Import ListNotations.
Open Scope nat_scope.

Lemma same_spec c d : same c d = true <-> c = d.
Proof. unfold same. destruct (list_eq_dec Nat.eq_dec c d); split; congruence. Qed.
Lemma same_refl c : same c c = true. Proof. apply same_spec; auto. Qed.
Lemma same_false c d : c <> d -> same c d = false.
Proof. intros X. destruct (same c d) eqn:E; auto. apply same_spec in E. congruence. Qed.
Lemma same_sym c d : same c d = same d c.
Proof. unfold same. destruct (list_eq_dec Nat.eq_dec c d), (list_eq_dec Nat.eq_dec d c); congruence. Qed.

Section Abs.
  Context {N : num} (OK : num_ok N).
  Add Field NFieldMA : (ok_field N OK).

  (** sums on the part of a list where the terms are not 0 *)
  Lemma sumL_support {T} (dec : forall x y : T, {x = y} + {x <> y}) (f : T -> N) L : forall M, NoDup L -> NoDup M -> incl M L -> (forall x, In x L -> ~ In x M -> f x = n0) -> sumL f L = sumL f M.
  Proof.
    induction L as [|x L IH]; intros M NL NM I Z.
    - destruct M as [|y M]; auto. destruct (I y); left; auto.
    - inversion NL as [|? ? Nx NL']; subst. destruct (in_dec dec x M) as [D|D].
      + apply in_split in D as (l1 & l2 & ->). rewrite (sumL_perm OK f (l1 ++ x :: l2) (x :: l1 ++ l2)) by (symmetry; apply Permutation_middle). simpl. f_equal.
        pose proof (NoDup_remove _ _ _ NM) as [NM' Nx']. apply IH; auto.
        * intros y Iy. destruct (I y) as [->|J]; auto. apply in_app_iff in Iy. apply in_app_iff. simpl. tauto. contradiction.
        * intros y Iy Ny. apply Z; [right; auto|]. intros Q. apply Ny. apply in_app_iff in Q. simpl in Q. apply in_app_iff. destruct Q as [Q|[->|Q]]; auto. contradiction.
      + simpl. rewrite (Z x) by (auto; left; auto). rewrite (nadd_0_l OK). apply IH; auto.
        * intros y Iy. destruct (I y Iy) as [->|J]; auto. contradiction.
        * intros y Iy Ny. apply Z; auto. right; auto.
  Qed.

  Lemma sumL_le {T} (f g : T -> N) l : (forall x, In x l -> (f x <= g x)%num) -> (sumL f l <= sumL g l)%num.
  Proof.
    induction l as [|x l IH]; intros L; simpl. apply (nle_refl OK). apply (nle_add OK); [apply L; left; auto|apply IH; intros; apply L; right; auto].
  Qed.
  Lemma nle_sub0 (x y : N) : (x <= y)%num -> (n0 <= y - x)%num.
  Proof.
    intros L. apply (nle_lt_eq OK) in L as [L|L]. apply (nlt_le OK). exact (proj1 (nlt_0_sub OK x y) L). subst. replace (y - y)%num with (n0 : N) by ring. apply (nle_refl OK).
  Qed.
  Lemma nle_sub_back (x y : N) : (n0 <= y - x)%num -> (x <= y)%num.
  Proof.
    intros L. apply (nle_lt_eq OK) in L as [L|L]. apply (nlt_le OK). exact (proj2 (nlt_0_sub OK x y) L). replace y with (y - x + x)%num by ring. rewrite <- L. replace (n0 + x)%num with x by ring. apply (nle_refl OK).
  Qed.
  Lemma npow_nonneg (x : N) n : (n0 <= x)%num -> (n0 <= npow x n)%num.
  Proof. intros P. induction n; simpl. apply (nlt_le OK), (nlt_0_1 OK). apply (nmul_nonneg OK); auto. Qed.
  Lemma npow_pos (x : N) n : (n0 < x)%num -> (n0 < npow x n)%num.
  Proof. intros P. induction n; simpl. apply (nlt_0_1 OK). apply (ok_mul N OK); auto. Qed.

  Lemma nle_one (x : N) : (n0 <= x)%num -> (n1 <= x + n1)%num.
  Proof. intros P. pose proof (nle_add OK _ _ _ _ P (nle_refl OK n1)) as R. rewrite (nadd_0_l OK) in R. auto. Qed.
  Lemma nmul_le1 (a x : N) : (n0 <= a)%num -> (x <= n1)%num -> (a * x <= a)%num.
  Proof. intros P Q. pose proof (nmul_le_l OK a x n1 P Q) as R. replace (a * n1)%num with a in R by ring. auto. Qed.

  Section Chain.
    Context {T : Type}.
    Variables (L : list T) (P : T -> T -> N) (pi : T -> N) (e : N).
    Hypothesis P_row : forall c, In c L -> sumL (P c) L = n1.
    Hypothesis P_low : forall c d, In c L -> In d L -> (e <= P c d)%num.
    Hypothesis e_nonneg : (n0 <= e)%num.
    Hypothesis pi_pos : forall c, In c L -> (n0 <= pi c)%num.
    Hypothesis pi_le : forall c, In c L -> (pi c <= n1)%num.
    Hypothesis pi_sum : sumL pi L = n1.
    Hypothesis pi_kept : forall d, In d L -> sumL (fun c => pi c * P c d)%num L = pi d.
    Variable h : T -> N.
    Hypothesis h_low : forall c, In c L -> (n0 <= h c)%num.
    Hypothesis h_high : forall c, In c L -> (h c <= n1)%num.
    Fixpoint expect (n : nat) (c : T) : N := match n with 0 => h c | S n => sumL (fun d => P c d * expect n d)%num L end.
    Let m := sumL (fun c => pi c * h c)%num L.

    Lemma expect_mean n : sumL (fun c => pi c * expect n c)%num L = m.
    Proof.
      induction n as [|n IH]; simpl; auto. rewrite <- IH.
      rewrite (sumL_ext _ (fun c => sumL (fun d => pi c * P c d * expect n d)%num L)).
      2:{ intros c _. rewrite <- (sumL_mul_l OK). apply sumL_ext. intros; ring. }
      rewrite (sumL_swap OK). apply sumL_ext. intros d I. rewrite (sumL_mul_r OK). rewrite pi_kept; auto.
    Qed.
    Lemma rest_nonneg c d : In c L -> In d L -> (n0 <= P c d - e * pi d)%num.
    Proof.
      intros Ic Id. apply nle_sub0. apply (nle_trans OK _ e); [|auto]. apply nmul_le1; auto.
    Qed.
    Lemma expect_step n c : In c L -> expect (S n) c = (sumL (fun d => (P c d - e * pi d) * expect n d) L + e * m)%num.
    Proof.
      intros Ic. rewrite <- (expect_mean n), <- (sumL_mul_l OK), <- (sumL_add OK). simpl. apply sumL_ext. intros d _. ring.
    Qed.
    Lemma rest_sum c x : In c L -> sumL (fun d => (P c d - e * pi d) * x)%num L = ((n1 - e) * x)%num.
    Proof.
      intros Ic. rewrite (sumL_mul_r OK). f_equal.
      rewrite (sumL_ext _ (fun d => P c d + (n0 - e) * pi d)%num) by (intros; ring). rewrite (sumL_add OK), (sumL_mul_l OK), pi_sum, (P_row c Ic). ring.
    Qed.
    Theorem expect_limit n : forall c, In c L ->
      (expect n c <= m + npow (n1 - e) n)%num /\ (m <= expect n c + npow (n1 - e) n)%num.
    Proof.
      assert (M0 : (n0 <= m)%num) by (apply (sumL_nonneg OK); intros c I; apply (nmul_nonneg OK); auto).
      assert (M1 : (m <= n1)%num).
      { rewrite <- pi_sum. apply sumL_le. intros c I. apply nmul_le1; auto. }
      induction n as [|n IH]; intros c Ic.
      - simpl. split.
        + apply (nle_trans OK _ n1); auto. apply nle_one; auto.
        + apply (nle_trans OK _ n1); auto. apply nle_one; auto.
      - rewrite (expect_step n c Ic). set (r := npow (n1 - e) n) in *. simpl npow. fold r. split.
        + replace (m + (n1 - e) * r)%num with ((n1 - e) * (m + r) + e * m)%num by ring. apply (nle_add OK); [|apply (nle_refl OK)].
          rewrite <- (rest_sum c) by auto. apply sumL_le. intros d Id. apply (nmul_le_l OK). apply rest_nonneg; auto. apply IH; auto.
        + apply nle_sub_back. set (S := sumL (fun d => (P c d - e * pi d) * expect n d)%num L). replace (S + e * m + (n1 - e) * r - m)%num with (S - (n1 - e) * (m - r))%num by ring. apply nle_sub0.
          rewrite <- (rest_sum c) by auto. apply sumL_le. intros d Id. apply (nmul_le_l OK). apply rest_nonneg; auto.
          destruct (IH d Id) as [_ Q]. apply nle_sub_back. replace (expect n d - (m - r))%num with (expect n d + r - m)%num by ring. apply nle_sub0; auto.
    Qed.
  End Chain.
End Abs.

(** {1 Combinations} *)
Definition fits (A : spec) (v : var) (k : nat) : Prop := k < vsize v /\ match sp_evidence A v with Some j => k = j | None => True end.
Lemma values_In A v k : In k (values A v) <-> fits A v k.
Proof.
  unfold values, fits. rewrite filter_In, in_seq. destruct (sp_evidence A v) as [j|].
  - rewrite Nat.eqb_eq. intuition lia.
  - intuition lia.
Qed.
Lemma combs_In A vs c : In c (combs A vs) <-> Forall2 (fits A) vs c.
Proof.
  revert c. induction vs as [|v vs IH]; intros c; simpl.
  - split. intros [<-|[]]. constructor. intros X. inversion X. auto.
  - rewrite in_flat_map. split.
    + intros (k & Ik & I). apply in_map_iff in I as (d & <- & Id). constructor. apply values_In; auto. apply IH; auto.
    + intros X. inversion X as [|? k ? d Y Z]; subst. exists k. split. apply values_In; auto. apply in_map, IH; auto.
Qed.
Lemma samples_In A c : In c (all_samples A) <-> sample_ok A c.
Proof. apply combs_In. Qed.
Lemma values_NoDup A v : NoDup (values A v).
Proof. apply NoDup_filter, seq_NoDup. Qed.
Lemma combs_NoDup A vs : NoDup (combs A vs).
Proof.
  induction vs as [|v vs IH]; simpl. { constructor; auto. constructor. }
  apply NoDup_flat_map. apply values_NoDup.
  - intros k _. apply FinFun.Injective_map_NoDup; auto. intros x y Q. congruence.
  - intros a b x _ _ I J. apply in_map_iff in I as (y & <- & _), J as (z & Q & _). congruence.
Qed.
Lemma samples_NoDup A : NoDup (all_samples A). Proof. apply combs_NoDup. Qed.

Lemma Forall2_nth {X} (R : X -> nat -> Prop) l c : Forall2 R l c <-> length c = length l /\ forall a v, nth_error l a = Some v -> R v (nth a c 0).
Proof.
  split.
  - induction 1 as [|x k l c R1 _ [L IH]]; simpl. { split; auto. intros [|a] v Q; discriminate. }
    split; auto. intros [|a] v Q; simpl in Q. injection Q as <-; auto. apply IH; auto.
  - revert c. induction l as [|x l IH]; intros [|k c] [L B]; simpl in L; try discriminate; constructor.
    + apply (B 0); auto.
    + apply IH. split; auto. intros a v Q. apply (B (S a)); auto.
Qed.
Lemma sample_nth A c : sample_ok A c <-> length c = length (sp_vars A) /\ forall a v, nth_error (sp_vars A) a = Some v -> fits A v (nth a c 0).
Proof. apply Forall2_nth. Qed.

Lemma replace_length {T} (c : list T) a k : length (replace c a k) = length c.
Proof. revert a. induction c as [|x c IH]; intros [|a]; simpl; auto. Qed.
Lemma replace_twice {T} (c : list T) a j k : replace (replace c a j) a k = replace c a k.
Proof. revert a. induction c as [|x c IH]; intros [|a]; simpl; auto. rewrite IH. auto. Qed.
Lemma replace_same (c : list nat) a : replace c a (nth a c 0) = c.
Proof. revert a. induction c as [|x c IH]; intros [|a]; simpl; auto. rewrite IH. auto. Qed.
Lemma replace_at (c : list nat) a k : a < length c -> nth a (replace c a k) 0 = k.
Proof. intros L. rewrite (nth_replace _ _ _ _ L), Nat.eqb_refl. auto. Qed.
Lemma replace_inj (c : list nat) a j k : a < length c -> replace c a j = replace c a k -> j = k.
Proof. intros L Q. rewrite <- (replace_at c a j L), Q. apply replace_at; auto. Qed.
Lemma replace_ok A c a v k : sample_ok A c -> nth_error (sp_vars A) a = Some v -> fits A v k -> sample_ok A (replace c a k).
Proof.
  rewrite !sample_nth. intros [L B] Ha K. rewrite replace_length. split; auto. intros b w Hb.
  assert (La : a < length c) by (rewrite L; eapply nth_error_Some; congruence).
  rewrite (nth_replace _ _ _ _ La). destruct (Nat.eqb_spec b a) as [->|_]; auto. replace w with v by congruence. auto.
Qed.
Lemma sample_length A c : sample_ok A c -> length c = length (sp_vars A).
Proof. intros X. apply sample_nth in X. tauto. Qed.

Lemma hidden_In A a : In a (hidden_positions A) <-> exists v, nth_error (sp_vars A) a = Some v /\ sp_evidence A v = None.
Proof.
  unfold hidden_positions. rewrite filter_In, in_seq. destruct (nth_error (sp_vars A) a) as [v|] eqn:E.
  - assert (a < length (sp_vars A)) by (apply nth_error_Some; congruence). destruct (sp_evidence A v) eqn:Q; split.
    + intros [_ X]; discriminate.
    + intros (w & X & Y). congruence.
    + intros _. eauto.
    + intros _. split; auto. lia.
  - split. intros [_ X]; discriminate. intros (w & X & _). discriminate.
Qed.

(** {1 The Gibbs chain} *)
Section Gibbs.
  Context {N : num} (OK : num_ok N).
  Variable F : nat -> func N.
  Variable A : spec.
  Hypothesis ND : NoDup (sp_vars A).
  Hypothesis LN : forall a v c k, nth_error (sp_vars A) a = Some v -> sp_evidence A v = None -> sample_ok A c -> k < vsize v -> (n0 <= level F A c a v k)%num.
  Hypothesis WN : forall c, sample_ok A c -> (n0 <= weight F A (combine (sp_vars A) c))%num.
  Add Field NFieldMG : (ok_field N OK).
  Notation w c := (weight F A (combine (sp_vars A) c)).
  Notation dec := (list_eq_dec Nat.eq_dec).
  Notation S_ := (all_samples A).

  (** {2 Sums over the combinations} *)
  Let A0 := mkSpec (sp_vars A) (fun _ => None) (sp_facs A).
  Lemma all_asg_combs vs : all_asg vs = map (combine vs) (combs A0 vs).
  Proof.
    induction vs as [|v vs IH]; simpl; auto. unfold values at 1. cbn [sp_evidence sp_ev A0].
    assert (Q : filter (fun _ : nat => true) (seq 0 (vsize v)) = seq 0 (vsize v)) by (induction (seq 0 (vsize v)); simpl; congruence).
    unfold sp_evidence. cbn [sp_ev A0]. rewrite Q. clear Q. induction (seq 0 (vsize v)) as [|k l IHl]; simpl; auto. rewrite map_app, IHl. f_equal. rewrite IH, !map_map. auto.
  Qed.
  Lemma agrees_ok c : sample_ok A0 c -> agrees A (combine (sp_vars A) c) = true <-> sample_ok A c.
  Proof.
    rewrite !sample_nth. cbn [sp_vars A0]. intros [L B]. unfold agrees. rewrite forallb_forall. split.
    - intros X. split; auto. intros a v Ha. destruct (B a v Ha) as [B1 _]. split; auto. specialize (X v (nth_error_In _ _ Ha)).
      destruct (sp_evidence A v); auto. apply Nat.eqb_eq in X. rewrite <- X. symmetry. apply (val_combine _ ND _ a); auto. apply nth_error_nth'. rewrite L. apply nth_error_Some. congruence.
    - intros [_ X] v Iv. apply In_nth_error in Iv as [a Ha]. destruct (X a v Ha) as [_ Y]. destruct (sp_evidence A v); auto. apply Nat.eqb_eq. rewrite <- Y. apply (val_combine _ ND _ a); auto. apply nth_error_nth'. rewrite L. apply nth_error_Some. congruence.
  Qed.
  Lemma mass_samples (W : asg -> N) P : mass W A P = sumL (fun c => if P (combine (sp_vars A) c) then W (combine (sp_vars A) c) else n0) S_.
  Proof.
    unfold mass. rewrite all_asg_combs, sumL_map.
    assert (I0 : forall c, In c S_ -> sample_ok A0 c).
    { intros c I. apply samples_In in I. apply sample_nth in I as [L B]. apply sample_nth. split; auto. intros a v Ha. destruct (B a v Ha). split; auto. exact I. }
    rewrite (sumL_support OK dec _ _ S_).
    - apply sumL_ext. intros c I. rewrite (proj2 (agrees_ok c (I0 c I))) by (apply samples_In; auto). auto.
    - apply (combs_NoDup A0).
    - apply samples_NoDup.
    - intros c I. apply (samples_In A0). auto.
    - intros c I Nc. destruct (agrees A (combine (sp_vars A) c)) eqn:E; auto. exfalso. apply Nc. apply samples_In. apply agrees_ok; auto. apply (samples_In A0). auto.
  Qed.
  Lemma term_le {T} (f : T -> N) l x : (forall y, In y l -> (n0 <= f y)%num) -> In x l -> (f x <= sumL f l)%num.
  Proof.
    induction l as [|y l IH]; intros P I. destruct I. simpl. destruct I as [->|I].
    - pose proof (nle_add OK _ _ _ _ (nle_refl OK (f x)) (sumL_nonneg OK f l (fun z Iz => P z (or_intror Iz)))) as Q. replace (f x + n0)%num with (f x) in Q by ring. auto.
    - pose proof (nle_add OK _ _ _ _ (P y (or_introl eq_refl)) (IH (fun z Iz => P z (or_intror Iz)) I)) as Q. rewrite (nadd_0_l OK) in Q. auto.
  Qed.
  Lemma sum_one (f : list nat -> N) c : sample_ok A c -> sumL (fun d => f d * (if same d c then n1 else n0))%num S_ = f c.
  Proof.
    intros I. rewrite (sumL_support OK dec _ _ [c]).
    - simpl. rewrite same_refl. ring.
    - apply samples_NoDup.
    - constructor; auto. constructor.
    - intros d [<-|[]]. apply samples_In; auto.
    - intros d _ Nd. rewrite same_false by (intros ->; apply Nd; left; auto). ring.
  Qed.
  Lemma sum_one' (f : list nat -> N) c : sample_ok A c -> sumL (fun d => (if same c d then n1 else n0) * f d)%num S_ = f c.
  Proof. intros I. rewrite <- (sum_one f c I). apply sumL_ext. intros d _. rewrite same_sym. ring. Qed.

  (** {2 One variable} *)
  Section One.
    Variables (a : nat) (v : var).
    Hypothesis Ha : nth_error (sp_vars A) a = Some v.
    Hypothesis Ev : sp_evidence A v = None.
    Notation Z c := (sumL (level F A c a v) (seq 0 (vsize v))).

    Lemma fits_k k : k < vsize v -> fits A v k.
    Proof. intros L. split; auto. rewrite Ev. auto. Qed.
    Lemma a_lt c : sample_ok A c -> a < length c.
    Proof. intros I. rewrite (sample_length A c I). apply nth_error_Some. congruence. Qed.
    Lemma size_pos c : sample_ok A c -> 0 < vsize v.
    Proof. intros I. apply sample_nth in I as [_ B]. destruct (B a v Ha). lia. Qed.
    Lemma level_replace c j k : level F A (replace c a j) a v k = level F A c a v k.
    Proof. unfold level. rewrite replace_twice. auto. Qed.
    Lemma Z_replace c j : Z (replace c a j) = Z c.
    Proof. apply sumL_ext. intros k _. apply level_replace. Qed.
    Lemma chance_replace c j k : chance F A (replace c a j) a v k = chance F A c a v k.
    Proof. unfold chance, conditional. rewrite Z_replace, level_replace. auto. Qed.
    Lemma Z_nonneg c : sample_ok A c -> (n0 <= Z c)%num.
    Proof. intros I. apply (sumL_nonneg OK). intros k Ik. apply in_seq in Ik. apply LN; auto. lia. Qed.
    Lemma chance_nonneg c k : sample_ok A c -> k < vsize v -> (n0 <= chance F A c a v k)%num.
    Proof.
      intros I L. unfold chance. destruct (neqb (Z c) n0) eqn:E.
      - destruct (k =? vsize v - 1). apply (nlt_le OK), (nlt_0_1 OK). apply (nle_refl OK).
      - unfold conditional. apply (ndiv_nonneg OK). apply LN; auto. pose proof (Z_nonneg c I) as Q. apply (nle_lt_eq OK) in Q as [Q|Q]; auto. apply (neqb_false OK) in E. congruence.
    Qed.
    Lemma chance_sum c : sample_ok A c -> sumL (chance F A c a v) (seq 0 (vsize v)) = n1.
    Proof.
      intros I. unfold chance. destruct (neqb (Z c) n0) eqn:E.
      - pose proof (size_pos c I). rewrite (sumL_support OK Nat.eq_dec _ _ [vsize v - 1]).
        + simpl. rewrite Nat.eqb_refl. ring.
        + apply seq_NoDup.
        + constructor; auto. constructor.
        + intros k [<-|[]]. apply in_seq. lia.
        + intros k _ Nk. destruct (Nat.eqb_spec k (vsize v - 1)); auto. exfalso. apply Nk. left. auto.
      - apply (neqb_false OK) in E. unfold conditional. rewrite (sumL_div OK) by auto. field. auto.
    Qed.
    Lemma redraw_val c k : sample_ok A c -> k < vsize v -> redraw_prob F A c a (replace c a k) = chance F A c a v k.
    Proof.
      intros I L. unfold redraw_prob. rewrite Ha. rewrite (sumL_support OK Nat.eq_dec _ _ [k]).
      - simpl. rewrite same_refl. ring.
      - apply seq_NoDup.
      - constructor; auto. constructor.
      - intros j [<-|[]]. apply in_seq. lia.
      - intros j _ Nj. rewrite same_false; auto. intros Q. apply Nj. left. apply (replace_inj c a); auto. apply a_lt; auto.
    Qed.
    Lemma redraw_out c d : (forall k, k < vsize v -> replace c a k <> d) -> redraw_prob F A c a d = n0.
    Proof.
      intros X. unfold redraw_prob. rewrite Ha. apply (sumL_0 OK). intros k Ik. apply in_seq in Ik. rewrite same_false; auto. apply X. lia.
    Qed.
    Lemma redraw_nonneg c d : sample_ok A c -> (n0 <= redraw_prob F A c a d)%num.
    Proof.
      intros I. unfold redraw_prob. rewrite Ha. apply (sumL_nonneg OK). intros k Ik. apply in_seq in Ik. destruct (same _ _). apply chance_nonneg; auto; lia. apply (nle_refl OK).
    Qed.
    Lemma redraw_row c : sample_ok A c -> sumL (redraw_prob F A c a) S_ = n1.
    Proof.
      intros I. rewrite <- (chance_sum c I). rewrite (sumL_support OK dec _ _ (map (replace c a) (seq 0 (vsize v)))).
      - rewrite sumL_map. apply sumL_ext. intros k Ik. apply in_seq in Ik. apply redraw_val; auto. lia.
      - apply samples_NoDup.
      - apply FinFun.Injective_map_NoDup; [|apply seq_NoDup]. intros j k Q. apply (replace_inj c a); auto. apply a_lt; auto.
      - intros d Id. apply in_map_iff in Id as (k & <- & Ik). apply in_seq in Ik. apply samples_In. apply (replace_ok A c a v); auto. apply fits_k. lia.
      - intros d _ Nd. apply redraw_out. intros k L Q. apply Nd. apply in_map_iff. exists k. split; auto. apply in_seq. lia.
    Qed.
    Definition rest_of (c : list nat) : N := prodL (fun f => fval (F f) (map (val (combine (sp_vars A) c)) (f_vars (F f)))) (filter (fun f => negb (existsb (same_instance v) (f_vars (F f)))) (sp_facs A)).
    Lemma weight_split c k : w (replace c a k) = (rest_of c * level F A c a v k)%num.
    Proof.
      unfold weight. rewrite (prodL_filter OK _ (fun f => existsb (same_instance v) (f_vars (F f)))). unfold level, weight_of. rewrite (nmul_comm OK). f_equal. unfold rest_of. apply prodL_ext. intros f I. apply filter_In in I as [_ I]. apply negb_true_iff in I.
      f_equal. apply map_ext_in. intros u Iu. apply (combine_replace_val _ _ _ v); auto. destruct (same_instance v u) eqn:E; auto. assert (X : existsb (same_instance v) (f_vars (F f)) = true) by (apply existsb_exists; eauto). congruence.
    Qed.
    Lemma level_zero c k : sample_ok A c -> Z c = n0 -> k < vsize v -> level F A c a v k = n0.
    Proof.
      intros I E L. apply (nle_antisym OK); [|apply LN; auto]. rewrite <- E. apply term_le. intros j Ij. apply in_seq in Ij. apply LN; auto. lia. apply in_seq. lia.
    Qed.
    Theorem reversible c d : sample_ok A c -> sample_ok A d -> (w c * redraw_prob F A c a d = w d * redraw_prob F A d a c)%num.
    Proof.
      intros Ic Id. pose proof (proj1 (sample_nth A c) Ic) as [_ Bc]. pose proof (proj1 (sample_nth A d) Id) as [_ Bd]. destruct (Bc a v Ha) as [Lc _], (Bd a v Ha) as [Ld _]. destruct (dec (replace c a (nth a d 0)) d) as [E|E].
      - set (j := nth a c 0) in *. set (k := nth a d 0) in *.
        assert (E' : replace d a j = c). { rewrite <- E, replace_twice. apply replace_same. }
        assert (R1 : redraw_prob F A c a d = chance F A c a v k) by (rewrite <- E; apply redraw_val; auto).
        assert (R2 : redraw_prob F A d a c = chance F A c a v j). { rewrite <- E' at 1. rewrite redraw_val by auto. rewrite <- E at 1. apply chance_replace. }
        assert (W1 : w c = (rest_of c * level F A c a v j)%num). { rewrite <- weight_split. unfold j. rewrite replace_same. auto. }
        assert (W2 : w d = (rest_of c * level F A c a v k)%num). { rewrite <- weight_split, E. auto. }
        rewrite R1, R2, W1, W2. unfold chance. destruct (neqb (Z c) n0) eqn:Q.
        + apply (ok_eqb N OK) in Q. rewrite !(level_zero c) by auto. ring.
        + apply (neqb_false OK) in Q. unfold conditional. field. auto.
      - rewrite !redraw_out. ring.
        + intros k _ Q. apply E. rewrite <- Q, replace_twice. apply replace_same.
        + intros k _ Q. apply E. rewrite <- Q. rewrite replace_at by (apply a_lt; auto). auto.
    Qed.
    Theorem redraw_kept d : sample_ok A d -> sumL (fun c => w c * redraw_prob F A c a d)%num S_ = w d.
    Proof.
      intros Id. rewrite (sumL_ext _ (fun c => w d * redraw_prob F A d a c)%num) by (intros c I; apply reversible; auto; apply samples_In; auto). rewrite (sumL_mul_l OK), redraw_row by auto. ring.
    Qed.
  End One.

  (** {2 Sweeps} *)
  Definition hid_list (l : list nat) : Prop := Forall (fun a => In a (hidden_positions A)) l.
  Lemma sweep_nonneg l : hid_list l -> forall c d, sample_ok A c -> (n0 <= sweep_prob F A l c d)%num.
  Proof.
    induction 1 as [|a l Ia _ IH]; intros c d Ic; simpl.
    - destruct (same c d). apply (nlt_le OK), (nlt_0_1 OK). apply (nle_refl OK).
    - apply hidden_In in Ia as (v & Ha & Ev). apply (sumL_nonneg OK). intros x Ix. apply (nmul_nonneg OK). apply (redraw_nonneg a v); auto. apply IH. apply samples_In; auto.
  Qed.
  Lemma sweep_row l : hid_list l -> forall c, sample_ok A c -> sumL (sweep_prob F A l c) S_ = n1.
  Proof.
    induction 1 as [|a l Ia _ IH]; intros c Ic; simpl.
    - etransitivity; [|exact (sum_one' (fun _ => n1) c Ic)]. apply sumL_ext. intros. ring.
    - apply hidden_In in Ia as (v & Ha & Ev). rewrite (sumL_swap OK). rewrite <- (redraw_row a v Ha Ev c Ic). apply sumL_ext. intros x Ix. rewrite (sumL_mul_l OK), IH by (apply samples_In; auto). ring.
  Qed.
  Lemma sweep_kept l : hid_list l -> forall d, sample_ok A d -> sumL (fun c => w c * sweep_prob F A l c d)%num S_ = w d.
  Proof.
    induction 1 as [|a l Ia _ IH]; intros d Id; simpl.
    - apply (sum_one (fun c => w c)); auto.
    - apply hidden_In in Ia as (v & Ha & Ev).
      rewrite (sumL_ext _ (fun c => sumL (fun x => (w c * redraw_prob F A c a x) * sweep_prob F A l x d)%num S_)).
      2:{ intros c _. rewrite <- (sumL_mul_l OK). apply sumL_ext. intros; ring. }
      rewrite (sumL_swap OK). rewrite <- (IH d Id). apply sumL_ext. intros x Ix. rewrite (sumL_mul_r OK). rewrite (redraw_kept a v) by (auto; apply samples_In; auto). auto.
  Qed.
  Lemma sweeps_nonneg l n : hid_list l -> forall c d, sample_ok A c -> (n0 <= sweeps_prob F A l n c d)%num.
  Proof.
    intros Hl. induction n as [|n IH]; intros c d Ic; simpl.
    - destruct (same c d). apply (nlt_le OK), (nlt_0_1 OK). apply (nle_refl OK).
    - apply (sumL_nonneg OK). intros x Ix. apply (nmul_nonneg OK). apply sweep_nonneg; auto. apply IH. apply samples_In; auto.
  Qed.
  Lemma sweeps_row l n : hid_list l -> forall c, sample_ok A c -> sumL (sweeps_prob F A l n c) S_ = n1.
  Proof.
    intros Hl. induction n as [|n IH]; intros c Ic; simpl.
    - etransitivity; [|exact (sum_one' (fun _ => n1) c Ic)]. apply sumL_ext. intros. ring.
    - rewrite (sumL_swap OK). rewrite <- (sweep_row l Hl c Ic). apply sumL_ext. intros x Ix. rewrite (sumL_mul_l OK), IH by (apply samples_In; auto). ring.
  Qed.
  Lemma sweeps_kept l n : hid_list l -> forall d, sample_ok A d -> sumL (fun c => w c * sweeps_prob F A l n c d)%num S_ = w d.
  Proof.
    intros Hl. induction n as [|n IH]; intros d Id; simpl.
    - apply (sum_one (fun c => w c)); auto.
    - rewrite (sumL_ext _ (fun c => sumL (fun x => (w c * sweep_prob F A l c x) * sweeps_prob F A l n x d)%num S_)).
      2:{ intros c _. rewrite <- (sumL_mul_l OK). apply sumL_ext. intros; ring. }
      rewrite (sumL_swap OK). rewrite <- (IH d Id). apply sumL_ext. intros x Ix. rewrite (sumL_mul_r OK). rewrite sweep_kept by (auto; apply samples_In; auto). auto.
  Qed.
  Notation Mass := (mass (weight F A) A (fun _ => true)).
  Lemma Mass_sum : Mass = sumL (fun c => w c) S_.
  Proof. rewrite mass_samples. auto. Qed.
  Theorem stationary l n d : hid_list l -> sample_ok A d -> Mass <> n0 ->
    sumL (fun c => probability F A c * sweeps_prob F A l n c d)%num S_ = probability F A d.
  Proof.
    intros Hl Id Z. unfold probability. rewrite (sumL_ext _ (fun c => (w c * sweeps_prob F A l n c d) / Mass)%num) by (intros; field; auto). rewrite (sumL_div OK) by auto. rewrite sweeps_kept; auto.
  Qed.
  Lemma probability_sum : Mass <> n0 -> sumL (probability F A) S_ = n1.
  Proof. intros Z. unfold probability. rewrite (sumL_div OK) by auto. rewrite <- Mass_sum. field. auto. Qed.
  Lemma probability_nonneg c : Mass <> n0 -> sample_ok A c -> (n0 <= probability F A c)%num.
  Proof.
    intros Z I. apply (ndiv_nonneg OK); auto. assert (Q : (n0 <= Mass)%num) by (rewrite Mass_sum; apply (sumL_nonneg OK); intros; apply WN; apply samples_In; auto). apply (nle_lt_eq OK) in Q as [Q|Q]; auto.
  Qed.

  (** {2 When all the combinations are possible} *)
  Lemma min_pos (l : list N) : (forall x, In x l -> (n0 < x)%num) -> exists e : N, (n0 < e)%num /\ (e <= n1)%num /\ forall x, In x l -> (e <= x)%num.
  Proof.
    induction l as [|x l IH]; intros P. { exists n1. split; [apply (nlt_0_1 OK)|]. split; [apply (nle_refl OK)|]. intros x []. }
    destruct IH as (e & Pe & Le & Be). { intros y Iy. apply P. right; auto. }
    destruct (nle_total OK e x) as [Q|Q].
    - exists e. split; auto. split; auto. intros y [<-|Iy]; auto.
    - exists x. split. apply P; left; auto. split. apply (nle_trans OK _ e); auto. intros y [<-|Iy]. apply (nle_refl OK). apply (nle_trans OK _ e); auto.
  Qed.
  Lemma npow_le1 (x : N) n : (n0 <= x)%num -> (x <= n1)%num -> (npow x n <= n1)%num.
  Proof.
    intros P L. induction n; simpl. apply (nle_refl OK). apply (nle_trans OK _ x); auto. apply (nmul_le1 OK); auto.
  Qed.
  Section Possible.
    Hypothesis WP : forall c, sample_ok A c -> (n0 < w c)%num.

    Lemma level_pos a v c k : nth_error (sp_vars A) a = Some v -> sp_evidence A v = None -> sample_ok A c -> k < vsize v -> (n0 < level F A c a v k)%num.
    Proof.
      intros Ha Ev Ic Lk. pose proof (LN a v c k Ha Ev Ic Lk) as Q. apply (nle_lt_eq OK) in Q as [Q|Q]; auto. exfalso.
      pose proof (WP (replace c a k) (replace_ok A c a v k Ic Ha (fits_k v Ev k Lk))) as P. rewrite (weight_split a v Ha), <- Q in P. replace (rest_of v c * n0)%num with (n0 : N) in P by ring. apply (nlt_irr OK _ P).
    Qed.
    Lemma chance_pos a v c k : nth_error (sp_vars A) a = Some v -> sp_evidence A v = None -> sample_ok A c -> k < vsize v -> (n0 < chance F A c a v k)%num.
    Proof.
      intros Ha Ev Ic Lk. assert (Z : (n0 < sumL (level F A c a v) (seq 0 (vsize v)))%num).
      { apply (sumL_pos OK). intros j Ij. apply in_seq in Ij. apply LN; auto; lia. exists k. split. apply in_seq; lia. apply level_pos; auto. }
      unfold chance. rewrite (proj2 (neqb_false OK _ _)) by (apply (nlt_neq' OK); auto). unfold conditional. apply (ndiv_pos OK); auto. apply level_pos; auto.
    Qed.
    Lemma chance_low : exists e, (n0 < e)%num /\ (e <= n1)%num /\
      forall a v c k, nth_error (sp_vars A) a = Some v -> sp_evidence A v = None -> sample_ok A c -> k < vsize v -> (e <= chance F A c a v k)%num.
    Proof.
      destruct (min_pos (flat_map (fun a => flat_map (fun c => match nth_error (sp_vars A) a with Some v => map (chance F A c a v) (seq 0 (vsize v)) | None => [] end) S_) (hidden_positions A))) as (e & P & L & B).
      - intros x Ix. apply in_flat_map in Ix as (a & Ia & Ix). apply in_flat_map in Ix as (c & Ic & Ix). apply hidden_In in Ia as (v & Ha & Ev). rewrite Ha in Ix. apply in_map_iff in Ix as (k & <- & Ik). apply in_seq in Ik. apply chance_pos; auto. apply samples_In; auto. lia.
      - exists e. split; auto. split; auto. intros a v c k Ha Ev Ic Lk. apply B. apply in_flat_map. exists a. split. apply hidden_In; eauto. apply in_flat_map. exists c. split. apply samples_In; auto. rewrite Ha. apply in_map_iff. exists k. split; auto. apply in_seq. lia.
    Qed.
    Lemma sweep_low e : (n0 < e)%num -> (forall a v c k, nth_error (sp_vars A) a = Some v -> sp_evidence A v = None -> sample_ok A c -> k < vsize v -> (e <= chance F A c a v k)%num) ->
      forall l, hid_list l -> forall c d, sample_ok A c -> sample_ok A d -> (forall b, ~ In b l -> nth b c 0 = nth b d 0) -> (npow e (length l) <= sweep_prob F A l c d)%num.
    Proof.
      intros Pe B l Hl. induction Hl as [|a l Ia Hl IH]; intros c d Ic Id X; simpl.
      - rewrite (proj2 (same_spec c d)). apply (nle_refl OK). apply (nth_ext _ _ 0 0). rewrite (sample_length A c Ic), (sample_length A d Id). auto. intros b _. apply X. auto.
      - apply hidden_In in Ia as (v & Ha & Ev). pose proof (proj1 (sample_nth A d) Id) as [_ Bd]. destruct (Bd a v Ha) as [Ld Fd].
        set (x := replace c a (nth a d 0)). assert (Ix : sample_ok A x) by (apply (replace_ok A c a v); auto; split; auto).
        apply (nle_trans OK _ (redraw_prob F A c a x * sweep_prob F A l x d)%num).
        + unfold x at 1. rewrite (redraw_val a v) by auto. apply (nle_trans OK _ (e * sweep_prob F A l x d)%num).
          * apply (nmul_le_l OK). apply (nlt_le OK); auto. apply IH; auto. intros b Nb. unfold x. rewrite nth_replace by (apply (a_lt a v Ha c Ic)). destruct (Nat.eqb_spec b a) as [->|Nab]; auto. apply X. intros [Q|Q]; auto.
          * rewrite (nmul_comm OK e), (nmul_comm OK (chance F A c a v (nth a d 0))). apply (nmul_le_l OK). apply sweep_nonneg; auto. apply B; auto.
        + apply (term_le (fun y => redraw_prob F A c a y * sweep_prob F A l y d)%num). 2: apply samples_In; auto. intros y Iy. apply samples_In in Iy. apply (nmul_nonneg OK). apply (redraw_nonneg a v); auto. apply sweep_nonneg; auto.
    Qed.
    Lemma sweeps_expect l n (P : asg -> bool) : forall c, sample_ok A c ->
      expect S_ (sweep_prob F A l) (fun c => if P (combine (sp_vars A) c) then n1 else n0) n c = sweeps_event F A l n c P.
    Proof.
      unfold sweeps_event. induction n as [|n IH]; intros c Ic; simpl.
      - etransitivity; [symmetry; exact (sum_one' (fun c => if P (combine (sp_vars A) c) then n1 else n0) c Ic)|]. apply sumL_ext. intros d _. destruct (P _); ring.
      - rewrite (sumL_ext _ (fun d => sumL (fun c' => sweep_prob F A l c d * (if P (combine (sp_vars A) c') then sweeps_prob F A l n d c' else n0))%num S_)).
        2:{ intros d Id. rewrite IH by (apply samples_In; auto). rewrite (sumL_mul_l OK). auto. }
        rewrite (sumL_swap OK). apply sumL_ext. intros c' _. destruct (P _). auto. apply (sumL_0 OK). intros. ring.
    Qed.
    Theorem converges : exists rho : N, (n0 <= rho)%num /\ (rho < n1)%num /\
      forall visit, Permutation visit (hidden_positions A) -> forall n c P, sample_ok A c ->
        (sweeps_event F A visit n c P <= event F A P + npow rho n)%num /\
        (event F A P <= sweeps_event F A visit n c P + npow rho n)%num.
    Proof.
      destruct chance_low as (e & Pe & Le & Be). set (e' := npow e (length (hidden_positions A))).
      assert (Pe' : (n0 < e')%num) by (apply (npow_pos OK); auto).
      assert (Le' : (e' <= n1)%num) by (apply npow_le1; auto; apply (nlt_le OK); auto).
      exists (n1 - e')%num. split. apply (nle_sub0 OK); auto. split. { apply (nlt_0_sub OK). replace (n1 - (n1 - e'))%num with e' by ring. auto. }
      intros visit PV n c P Ic.
      assert (Hl : hid_list visit). { apply Forall_forall. intros a Ia. eapply Permutation_in; eauto. }
      assert (MP : (n0 < Mass)%num). { rewrite Mass_sum. apply (sumL_pos OK). intros x Ix. apply WN. apply samples_In; auto. exists c. split. apply samples_In; auto. apply WP; auto. }
      assert (Z : Mass <> n0) by (apply (nlt_neq' OK); auto).
      assert (EV : event F A P = sumL (fun d => probability F A d * (if P (combine (sp_vars A) d) then n1 else n0))%num S_).
      { unfold event, probability. rewrite mass_samples. rewrite <- (sumL_div OK) by auto. apply sumL_ext. intros d _. destruct (P _); field; auto. }
      rewrite EV, <- sweeps_expect by auto. apply (expect_limit OK S_ (sweep_prob F A visit) (probability F A) e').
      - intros x Ix. apply sweep_row; auto. apply samples_In; auto.
      - intros x y Ix Iy. apply samples_In in Ix, Iy. unfold e'. rewrite <- (Permutation_length PV). apply sweep_low; auto. intros b Nb.
        apply sample_nth in Ix as [Lx Bx]. apply sample_nth in Iy as [Ly By]. destruct (nth_error (sp_vars A) b) as [u|] eqn:Hb.
        + destruct (Bx b u Hb) as [_ X], (By b u Hb) as [_ Y]. destruct (sp_evidence A u) eqn:Eu. congruence. exfalso. apply Nb. eapply Permutation_in. symmetry; exact PV. apply hidden_In. eauto.
        + apply nth_error_None in Hb. rewrite !nth_overflow by lia. auto.
      - apply (nlt_le OK); auto.
      - intros x Ix. apply probability_nonneg; auto. apply samples_In; auto.
      - intros x Ix. rewrite <- (probability_sum Z). apply term_le; auto. intros y Iy. apply probability_nonneg; auto. apply samples_In; auto.
      - apply probability_sum; auto.
      - intros d Id. apply samples_In in Id. rewrite <- (stationary visit 1 d Hl Id Z). apply sumL_ext. intros x Ix. simpl. rewrite (sum_one (fun y => sweep_prob F A visit x y) d Id). auto.
      - intros x _. destruct (P _). apply (nlt_le OK), (nlt_0_1 OK). apply (nle_refl OK).
      - intros x _. destruct (P _). apply (nle_refl OK). apply (nlt_le OK), (nlt_0_1 OK).
      - apply samples_In; auto.
    Qed.
  End Possible.

  (** {2 The numbers drawn} *)
  Lemma seq_sum_S (f : nat -> N) k : sumL f (seq 0 (S k)) = (sumL f (seq 0 k) + f k)%num.
  Proof. rewrite seq_S, (sumL_app OK). simpl. ring. Qed.
  Lemma seq_sum_mono (f : nat -> N) k n : k <= n -> (forall i, i < n -> (n0 <= f i)%num) -> (sumL f (seq 0 k) <= sumL f (seq 0 n))%num.
  Proof.
    intros L P. induction L as [|n L IH]. apply (nle_refl OK). rewrite seq_sum_S. pose proof (nle_add OK _ _ _ _ (IH (fun i Li => P i (Nat.lt_lt_succ_r _ _ Li))) (P n (Nat.lt_succ_diag_r n))) as Q. replace (sumL f (seq 0 k) + n0)%num with (sumL f (seq 0 k)) in Q by ring. auto.
  Qed.
  Theorem redraw_interval a v c c' : nth_error (sp_vars A) a = Some v -> sp_evidence A v = None -> sample_ok A c ->
    exists lo, (n0 <= lo)%num /\ (lo + redraw_prob F A c a c' <= n1)%num /\
      forall x, (n0 < x)%num -> (x <= n1)%num -> (redraw F A c a x c' <-> (lo < x)%num /\ (x <= lo + redraw_prob F A c a c')%num).
  Proof.
    intros Ha Ev Ic. destruct (dec (replace c a (nth a c' 0)) c') as [E|E]; [destruct (Nat.lt_ge_cases (nth a c' 0) (vsize v)) as [Lk|Lk]|].
    - set (k := nth a c' 0) in *. rewrite <- E. rewrite (redraw_val a v) by auto. set (lo := sumL (chance F A c a v) (seq 0 k)).
      assert (CN : forall i, i < vsize v -> (n0 <= chance F A c a v i)%num) by (intros; apply (chance_nonneg a v); auto).
      assert (S1 : (lo + chance F A c a v k)%num = sumL (chance F A c a v) (seq 0 (S k))) by (unfold lo; rewrite seq_sum_S; auto).
      assert (R : forall x, redraw F A c a x (replace c a k) <-> ((sumL (level F A c a v) (seq 0 (vsize v)) = n0 -> k = vsize v - 1) /\ (sumL (level F A c a v) (seq 0 (vsize v)) <> n0 -> selects (vsize v) (conditional F A c a v) x k))).
      { intros x. split.
        - intros (v' & j & Q1 & Q2 & Q3 & Q4 & Q5). rewrite Ha in Q1. injection Q1 as <-. apply replace_inj in Q3; [|apply (a_lt a v Ha c Ic)]. subst j. auto.
        - intros [Q4 Q5]. exists v, k. split; [auto|]. split; [auto|]. split; [auto|]. split; auto. }
      exists lo. split. { apply (sumL_nonneg OK). intros i Ii. apply in_seq in Ii. apply CN. lia. }
      split. { rewrite S1. rewrite <- (chance_sum a v Ha c Ic). apply seq_sum_mono; auto. }
      intros x P L. rewrite R. rewrite S1. unfold lo. destruct (neqb (sumL (level F A c a v) (seq 0 (vsize v))) n0) eqn:Q.
      + pose proof Q as Q'. apply (ok_eqb N OK) in Q. assert (CV : forall i, chance F A c a v i = if i =? vsize v - 1 then n1 else n0) by (intros i; unfold chance; rewrite Q'; auto).
        rewrite seq_sum_S. rewrite CV. assert (S0 : sumL (chance F A c a v) (seq 0 k) = n0).
        { apply (sumL_0 OK). intros i Ii. apply in_seq in Ii. rewrite CV. destruct (Nat.eqb_spec i (vsize v - 1)); auto. lia. }
        rewrite S0, (nadd_0_l OK). destruct (Nat.eqb_spec k (vsize v - 1)) as [Ek|Nk].
        * split; auto. intros _. split; auto. intros X. contradiction.
        * split. intros [X _]. exfalso. apply Nk. auto. intros [X Y]. exfalso. congruence.
      + pose proof Q as Q'. apply (neqb_false OK) in Q. assert (CV : forall i, chance F A c a v i = conditional F A c a v i) by (intros i; unfold chance; rewrite Q'; auto).
        rewrite !(sumL_ext (chance F A c a v) (conditional F A c a v)) by auto. split.
        * intros [_ X]. destruct (X Q) as (_ & B & U). split.
          -- destruct B as [B|B]; auto. rewrite B. exact P.
          -- destruct U as [U|U]; auto. rewrite U. replace (S (vsize v - 1)) with (vsize v) by (pose proof (size_pos a v Ha c Ic); lia).
             pose proof (chance_sum a v Ha c Ic) as T. rewrite (sumL_ext (chance F A c a v) (conditional F A c a v)) in T by auto. rewrite T. auto.
        * intros [B U]. split. intros X; contradiction. intros _. split; auto.
    - exists n0. split. apply (nle_refl OK). assert (O : redraw_prob F A c a c' = n0).
      { apply (redraw_out a v); auto. intros k L Q. rewrite <- Q in Lk. rewrite replace_at in Lk by (apply (a_lt a v Ha c Ic)). lia. }
      rewrite O, (nadd_0_l OK). split. apply (nlt_le OK), (nlt_0_1 OK). intros x P L. split; [|intros [X Y]; congruence].
      intros (v' & j & Q1 & Q2 & Q3 & _). rewrite Ha in Q1. injection Q1 as <-. exfalso. rewrite Q3 in Lk. rewrite replace_at in Lk by (apply (a_lt a v Ha c Ic)). lia.
    - exists n0. split. apply (nle_refl OK). assert (O : redraw_prob F A c a c' = n0).
      { apply (redraw_out a v); auto. intros k L Q. apply E. rewrite <- Q at 1. rewrite replace_at by (apply (a_lt a v Ha c Ic)). auto. }
      rewrite O, (nadd_0_l OK). split. apply (nlt_le OK), (nlt_0_1 OK). intros x P L. split; [|intros [X Y]; congruence].
      intros (v' & j & Q1 & Q2 & Q3 & _). rewrite Ha in Q1. injection Q1 as <-. exfalso. apply E. rewrite Q3 at 1. rewrite replace_at by (apply (a_lt a v Ha c Ic)). auto.
  Qed.
End Gibbs.
