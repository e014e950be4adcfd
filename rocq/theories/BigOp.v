(** Sums and maxima over the assignments of a set of nodes *)
From Coq Require Import List Arith Bool Lia Permutation Field Ring.
From Verif Require Import Res Num Categoric Func Special Graph.
Import ListNotations.
Open Scope nat_scope.

Section Big.
  Context {N : num} (OK : num_ok N).
  Add Field NFieldBig : (ok_field N OK).
  Variable k : kind.

  (** the sum ([SUM]) or the maximum with zero ([MAP]) of [f] over a list *)
  Definition bigL {A} (f : A -> N) (l : list A) : N := fold_right (fun a acc => red_update k (f a) acc) n0 l.

  Lemma op_comm (x y : N) : red_update k x y = red_update k y x.
  Proof. destruct k; simpl. ring. apply nmax_comm; auto. Qed.
  Lemma op_assoc (x y z : N) : red_update k x (red_update k y z) = red_update k (red_update k x y) z.
  Proof. destruct k; simpl. ring. apply nmax_assoc; auto. Qed.
  Lemma op_swap (x y z : N) : red_update k x (red_update k y z) = red_update k y (red_update k x z).
  Proof. rewrite !op_assoc, (op_comm x y). auto. Qed.
  Lemma op_mul (c x y : N) : (n0 <= c)%num -> (c * red_update k x y = red_update k (c * x) (c * y))%num.
  Proof. intros L. destruct k; simpl. ring. apply nmax_mul; auto. Qed.
  Lemma op_00 : red_update k n0 n0 = n0 :> N.
  Proof. destruct k; simpl. ring. unfold nmax. destruct (nltb n0 n0); auto. Qed.
  Lemma op_0_l (x : N) : (n0 <= x)%num -> red_update k n0 x = x.
  Proof. intros L. destruct k; simpl. ring. unfold nmax. destruct (nltb n0 x) eqn:E; auto. apply (nle_antisym OK); auto. Qed.
  Lemma op_nonneg (x y : N) : (n0 <= x)%num -> (n0 <= y)%num -> (n0 <= red_update k x y)%num.
  Proof. intros A B. destruct k; simpl. apply nadd_nonneg; auto. apply (nle_trans OK _ x); auto. apply nmax_le_l; auto. Qed.
  Lemma op_pos_l (x y : N) : (n0 < x)%num -> (n0 <= y)%num -> (n0 < red_update k x y)%num.
  Proof. intros A B. destruct k; simpl. apply nadd_pos_l; auto. apply (nlt_le_trans OK _ x); auto. apply nmax_le_l; auto. Qed.
  Lemma op_pos_r (x y : N) : (n0 <= x)%num -> (n0 < y)%num -> (n0 < red_update k x y)%num.
  Proof. intros A B. rewrite op_comm. apply op_pos_l; auto. Qed.

  Lemma bigL_ext {A} (f g : A -> N) l : (forall a, In a l -> f a = g a) -> bigL f l = bigL g l.
  Proof. induction l as [|a l IH]; simpl; intros E; auto. rewrite E, IH; auto. Qed.
  Lemma bigL_map {A B} (f : B -> N) (g : A -> B) l : bigL f (map g l) = bigL (fun a => f (g a)) l.
  Proof. induction l as [|a l IH]; simpl; auto. rewrite IH; auto. Qed.
  Lemma bigL_perm {A} (f : A -> N) l1 l2 : Permutation l1 l2 -> bigL f l1 = bigL f l2.
  Proof. induction 1; simpl; auto. congruence. apply op_swap. congruence. Qed.
  Lemma bigL_mul {A} (f : A -> N) c l : (n0 <= c)%num -> bigL (fun a => (c * f a)%num) l = (c * bigL f l)%num.
  Proof. intros L. induction l as [|a l IH]; simpl. ring. rewrite IH, op_mul; auto. Qed.
  Lemma bigL_0 {A} (f : A -> N) l : (forall a, In a l -> f a = n0) -> bigL f l = n0.
  Proof. induction l as [|a l IH]; simpl; intros E; auto. rewrite E, IH; auto. apply op_00. Qed.
  Lemma bigL_nonneg {A} (f : A -> N) l : (forall a, In a l -> (n0 <= f a)%num) -> (n0 <= bigL f l)%num.
  Proof. induction l as [|a l IH]; simpl; intros E. apply nle_refl; auto. apply op_nonneg; auto. Qed.
  Lemma bigL_pos {A} (f : A -> N) l a : (forall b, In b l -> (n0 <= f b)%num) -> In a l -> (n0 < f a)%num -> (n0 < bigL f l)%num.
  Proof.
    induction l as [|b l IH]; simpl; intros E I P. contradiction. destruct I as [-> |I].
    - apply op_pos_l; auto. apply bigL_nonneg; auto.
    - apply op_pos_r; auto.
  Qed.
  Lemma bigL_pos_inv {A} (f : A -> N) l : (n0 < bigL f l)%num -> exists a, In a l /\ (n0 < f a)%num.
  Proof.
    induction l as [|a l IH]; simpl; intros P. destruct (nlt_irr OK _ P).
    destruct (nltb n0 (f a)) eqn:E. exists a; auto.
    assert (Q : (n0 < bigL f l)%num).
    { destruct (nltb n0 (bigL f l)) eqn:F; auto. exfalso. destruct k; simpl in P.
      - assert (Z : (f a + bigL f l <= n0 + n0)%num) by (apply nle_add; auto).
        replace (n0 + n0)%num with (n0 : N) in Z by ring. congruence.
      - destruct (nmax_cases (f a) (bigL f l)) as [Q|Q]; rewrite Q in P; congruence. }
    destruct (IH Q) as (b & I & Pb). exists b; auto.
  Qed.
  Lemma bigL_op {A} (f g : A -> N) l : bigL (fun a => red_update k (f a) (g a)) l = red_update k (bigL f l) (bigL g l).
  Proof.
    induction l as [|a l IH]; simpl. symmetry. apply op_00.
    rewrite IH. rewrite <- !op_assoc. f_equal. rewrite op_swap. auto.
  Qed.
  Lemma bigL_swap {A B} (f : A -> B -> N) la lb :
    bigL (fun a => bigL (f a) lb) la = bigL (fun b => bigL (fun a => f a b) la) lb.
  Proof.
    induction la as [|a la IH]; simpl.
    - symmetry. apply bigL_0. auto.
    - rewrite IH, <- bigL_op. apply bigL_ext. auto.
  Qed.
  Lemma bigL_app {A} (f : A -> N) l1 l2 : (forall a, In a l2 -> (n0 <= f a)%num) ->
    bigL f (l1 ++ l2) = red_update k (bigL f l1) (bigL f l2).
  Proof.
    intros P. induction l1 as [|a l1 IH]; simpl.
    - symmetry. apply op_0_l. apply bigL_nonneg; auto.
    - rewrite IH, op_assoc; auto.
  Qed.

  (** {1 Assignments of the nodes} *)
  Variable sz : nat -> nat.

  (** the sum (or maximum) of [F] over the values of the nodes [ns], the other
      nodes keeping the values of [x] *)
  Fixpoint osum (ns : list nat) (F : (nat -> nat) -> N) (x : nat -> nat) : N :=
    match ns with
    | [] => F x
    | a :: r => bigL (fun i => osum r F (fupd x a i)) (seq 0 (sz a))
    end.

  Definition ext (F : (nat -> nat) -> N) : Prop := forall x y, (forall a, x a = y a) -> F x = F y.

  Lemma fupd_eq {A} (m : nat -> A) j a : fupd m j a j = a.
  Proof. unfold fupd. rewrite Nat.eqb_refl. auto. Qed.
  Lemma fupd_ne {A} (m : nat -> A) j a i : i <> j -> fupd m j a i = m i.
  Proof. intros E. unfold fupd. rewrite (proj2 (Nat.eqb_neq i j)); auto. Qed.

  (** [y] is [x] with other values, in range, at the nodes of [ns] *)
  Definition varies (ns : list nat) (x y : nat -> nat) : Prop :=
    (forall a, ~ In a ns -> y a = x a) /\ (forall a, In a ns -> y a < sz a).

  Lemma varies_cons a ns x y i : ~ In a ns -> i < sz a -> varies ns (fupd x a i) y -> varies (a :: ns) x y /\ y a = i.
  Proof.
    intros NI L [V1 V2]. assert (E : y a = i) by (rewrite V1; auto; apply fupd_eq). split; auto. split.
    - intros b NB. rewrite V1. apply fupd_ne. intros ->. apply NB; simpl; auto. intros I; apply NB; simpl; auto.
    - intros b [<- |I]; auto. rewrite E; auto.
  Qed.

  Lemma osum_factor ns : NoDup ns -> forall (F G : (nat -> nat) -> N) c x, (n0 <= c)%num ->
    (forall y, varies ns x y -> F y = (c * G y)%num) -> osum ns F x = (c * osum ns G x)%num.
  Proof.
    induction 1 as [|a ns NI ND IH]; simpl; intros F G c x L E.
    - apply E. split; auto. intros a [].
    - rewrite <- bigL_mul; auto. apply bigL_ext. intros i I. apply in_seq in I. apply IH; auto.
      intros y V. apply E. apply (varies_cons a ns x y i); auto. lia.
  Qed.
  Lemma osum_ext ns : NoDup ns -> forall (F G : (nat -> nat) -> N) x,
    (forall y, varies ns x y -> F y = G y) -> osum ns F x = osum ns G x.
  Proof.
    intros ND F G x E. rewrite (osum_factor ns ND F G n1 x). ring. apply nlt_le, nlt_0_1; auto.
    intros y V. rewrite E; auto. ring.
  Qed.
  Lemma osum_mul ns : forall (F : (nat -> nat) -> N) c x, (n0 <= c)%num -> osum ns (fun y => (c * F y)%num) x = (c * osum ns F x)%num.
  Proof.
    induction ns as [|a ns IH]; simpl; intros F c x L; auto. rewrite <- bigL_mul; auto. apply bigL_ext. intros i _. apply IH; auto.
  Qed.
  Lemma osum_agree ns : forall F x y, ext F -> (forall a, ~ In a ns -> x a = y a) -> osum ns F x = osum ns F y.
  Proof.
    induction ns as [|a ns IH]; simpl; intros F x y EF E. apply EF; auto.
    apply bigL_ext. intros i _. apply IH; auto. intros b NB. unfold fupd. destruct (Nat.eqb_spec b a); auto. apply E.
    intros [Q|Q]; auto.
  Qed.
  Lemma osum_is_ext ns F : ext F -> ext (osum ns F).
  Proof. intros EF x y E. apply osum_agree; auto. Qed.
  Lemma osum_app l1 l2 : forall F x, osum (l1 ++ l2) F x = osum l1 (osum l2 F) x.
  Proof. induction l1 as [|a l1 IH]; simpl; intros F x; auto. apply bigL_ext. intros i _. apply IH. Qed.
  Lemma osum_perm l1 l2 : Permutation l1 l2 -> NoDup l1 -> forall F x, ext F -> osum l1 F x = osum l2 F x.
  Proof.
    induction 1 as [|a l1 l2 P IH|a b l|l1 l2 l3 P1 IH1 P2 IH2]; simpl; intros ND F x EF; auto.
    - inversion ND; subst. apply bigL_ext. intros i _. apply IH; auto.
    - rewrite bigL_swap. apply bigL_ext. intros i _. apply bigL_ext. intros j _. apply osum_agree; auto.
      intros c _. inversion ND as [|? ? NI _]; subst. unfold fupd.
      destruct (Nat.eqb_spec c a), (Nat.eqb_spec c b); subst; auto. exfalso. apply NI. simpl; auto.
    - rewrite IH1, IH2; auto. eapply Permutation_NoDup; eauto.
  Qed.
  Lemma osum_nonneg ns : NoDup ns -> forall F x, (forall y, varies ns x y -> (n0 <= F y)%num) -> (n0 <= osum ns F x)%num.
  Proof.
    induction 1 as [|a ns NI ND IH]; simpl; intros F x E.
    - apply E. split; auto. intros a [].
    - apply bigL_nonneg. intros i I. apply in_seq in I. apply IH. intros y V. apply E. apply (varies_cons a ns x y i); auto. lia.
  Qed.
  Lemma osum_pos_inv ns : NoDup ns -> forall F x, (n0 < osum ns F x)%num -> exists y, varies ns x y /\ (n0 < F y)%num.
  Proof.
    induction 1 as [|a ns NI ND IH]; simpl; intros F x P.
    - exists x. split; auto. split; auto. intros a [].
    - apply bigL_pos_inv in P as (i & I & P). apply in_seq in I. apply IH in P as (y & V & P). exists y. split; auto.
      apply (varies_cons a ns x y i); auto. lia.
  Qed.
  Lemma osum_pos ns : NoDup ns -> forall F x y, ext F -> (forall y, varies ns x y -> (n0 <= F y)%num) -> varies ns x y -> (n0 < F y)%num ->
    (n0 < osum ns F x)%num.
  Proof.
    induction 1 as [|a ns NI ND IH]; simpl; intros F x y EF NN [V1 V2] P.
    - rewrite (EF x y); auto. intros a. symmetry. apply V1. intros [].
    - apply (bigL_pos _ _ (y a)).
      + intros i I. apply in_seq in I. apply osum_nonneg; auto. intros z V. apply NN. apply (varies_cons a ns x z i); auto. lia.
      + apply in_seq. specialize (V2 a (or_introl eq_refl)). lia.
      + apply (IH F _ y); auto.
        * intros z V. apply NN. apply (varies_cons a ns x z (y a)); auto. apply V2; simpl; auto.
        * split; [|intros; apply V2; simpl; auto]. intros b NB. unfold fupd. destruct (Nat.eqb_spec b a); subst; auto.
          apply V1. intros [Q|Q]; auto.
  Qed.
End Big.
