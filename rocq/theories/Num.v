(** The numbers of the model.

    C++ [float] is modelled by any set of numbers with the operations the code
    uses (record [num]). The theorems about values suppose the laws of an ordered
    field ([num_ok]): rationals, reals. The theorems about the structure, the
    evidences, the exceptions, undefined behaviour, termination, copies, ... do
    not, and hold in particular for the floats of IEEE 754 (FloatNum.v), with
    rounding, overflow and underflow. [expf] is any function.

    [ndz] tells the divisors after which the model stops with the outcome [Nan]
    (0 in a field, none for the floats of IEEE 754, where 0/0 is a value). *)
From Coq Require Import List Arith Bool Lia Permutation Field Ring.
From Coq Require Import QArith Qcanon.
Import ListNotations.

Record num := mkNum {
  carrier :> Type;
  n0 : carrier;
  n1 : carrier;
  nadd : carrier -> carrier -> carrier;
  nmul : carrier -> carrier -> carrier;
  nsub : carrier -> carrier -> carrier;
  nopp : carrier -> carrier;
  ndiv : carrier -> carrier -> carrier;
  ninv : carrier -> carrier;
  nltb : carrier -> carrier -> bool;
  neqb : carrier -> carrier -> bool;
  nexp : carrier -> carrier;           (** [expf] *)
  nfltmin : carrier;                   (** [std::numeric_limits<float>::min()] *)
  ndz : carrier -> bool;               (** the numbers no number can be divided by *)
}.
Arguments n0 {_}. Arguments n1 {_}.
Arguments nadd {_} _ _. Arguments nmul {_} _ _. Arguments nsub {_} _ _.
Arguments nopp {_} _. Arguments ndiv {_} _ _. Arguments ninv {_} _.
Arguments nltb {_} _ _. Arguments neqb {_} _ _. Arguments nexp {_} _.
Arguments nfltmin {_}. Arguments ndz {_} _.

Declare Scope num_scope.
Delimit Scope num_scope with num.
Bind Scope num_scope with carrier.
Notation "x + y" := (nadd x y) : num_scope.
Notation "x * y" := (nmul x y) : num_scope.
Notation "x - y" := (nsub x y) : num_scope.
Notation "x / y" := (ndiv x y) : num_scope.
Notation "- x" := (nopp x) : num_scope.
Notation "0" := n0 : num_scope.
Notation "1" := n1 : num_scope.
Notation "x <? y" := (nltb x y) : num_scope.
Notation "x =? y" := (neqb x y) : num_scope.
Notation "x < y" := (nltb x y = true) : num_scope.
Notation "x <= y" := (nltb y x = false) : num_scope.
Open Scope num_scope.

(** The laws of an ordered field, plus positivity of [expf] and of the smallest
    positive float. *)
Record num_ok (N : num) : Prop := {
  ok_field : field_theory (n0 : N) n1 nadd nmul nsub nopp ndiv ninv eq;
  ok_eqb : forall x y : N, (x =? y) = true <-> x = y;
  ok_irr : forall x : N, (x <? x) = false;
  ok_trans : forall x y z : N, x < y -> y < z -> x < z;
  ok_total : forall x y : N, x < y \/ x = y \/ y < x;
  ok_add : forall x y z : N, x < y -> z + x < z + y;
  ok_mul : forall x y : N, 0 < x -> 0 < y -> 0 < x * y;
  ok_exp : forall x : N, 0 < nexp x;
  ok_fltmin : (0 : N) < nfltmin;
  ok_dz : forall x : N, ndz x = (x =? 0)
}.

(** [std::max<float>(a, b)] *)
Definition nmax {N : num} (a b : N) : N := if a <? b then b else a.

Fixpoint nofnat {N : num} (n : nat) : N :=
  match n with O => 0 | S k => 1 + nofnat k end.

(** sums, products, maxima over lists *)
Definition sumL {N : num} {A} (f : A -> N) (l : list A) : N :=
  fold_right (fun a acc => f a + acc) 0 l.
Definition prodL {N : num} {A} (f : A -> N) (l : list A) : N :=
  fold_right (fun a acc => f a * acc) 1 l.

(** {1 Instance: canonical rationals}

    [exp] is replaced by a rational positive increasing function, which is
    enough to run examples. *)
Definition Qc_ltb (x y : Qc) : bool := negb (Qle_bool y x).
Definition Qc_eqb (x y : Qc) : bool := Qeq_bool x y.
Definition Qc_exp (x : Qc) : Qc :=
  (if Qc_ltb x 0 then / (1 - x) else 1 + x)%Qc.

Definition QcNum : num :=
  {| carrier := Qc; n0 := Q2Qc 0; n1 := Q2Qc 1;
     nadd := Qcplus; nmul := Qcmult; nsub := Qcminus; nopp := Qcopp;
     ndiv := Qcdiv; ninv := Qcinv;
     nltb := Qc_ltb; neqb := Qc_eqb; nexp := Qc_exp;
     nfltmin := Q2Qc (1 # (2 ^ 126));
     ndz := fun x => Qc_eqb x (Q2Qc 0) |}.

Lemma Qc_ltb_spec (x y : Qc) : Qc_ltb x y = true <-> (x < y)%Qc.
Proof.
  unfold Qc_ltb, Qclt. rewrite negb_true_iff. split; intros H.
  - apply Qnot_le_lt. intros E. apply Qle_bool_iff in E. congruence.
  - destruct (Qle_bool y x) eqn:E; auto. apply Qle_bool_iff in E.
    exfalso. apply (Qlt_not_le _ _ H E).
Qed.

Lemma QcNum_ok : num_ok QcNum.
Proof.
  constructor; simpl.
  - exact Qcft.
  - intros x y. unfold Qc_eqb. rewrite Qeq_bool_iff. split.
    + apply Qc_is_canon.
    + intros ->. reflexivity.
  - intros x. destruct (Qc_ltb x x) eqn:E; auto. apply Qc_ltb_spec in E.
    exfalso. exact (Qlt_irrefl _ E).
  - intros x y z H1 H2. rewrite Qc_ltb_spec in *. exact (Qclt_trans _ _ _ H1 H2).
  - intros x y. rewrite !Qc_ltb_spec. destruct (Qc_dec x y) as [[H|H]|H]; auto.
  - intros x y z H. rewrite Qc_ltb_spec in *. unfold Qclt in *.
    change (Qred (z + x) < Qred (z + y))%Q.
    rewrite !Qred_correct. apply Qplus_lt_r. exact H.
  - intros x y H1 H2. rewrite Qc_ltb_spec in *. unfold Qclt in *.
    change (0 < x)%Q in H1. change (0 < y)%Q in H2. change (0 < Qred (x * y))%Q.
    rewrite !Qred_correct. apply Qmult_lt_0_compat; assumption.
  - intros x. rewrite Qc_ltb_spec. unfold Qc_exp. destruct (Qc_ltb x 0) eqn:E.
    + apply Qc_ltb_spec in E. unfold Qclt in *. change (x < 0)%Q in E.
      change (0 < Qred (/ Qred (1 + Qred (- x))))%Q.
      rewrite !Qred_correct. apply Qinv_lt_0_compat.
      assert (0 < - x)%Q by (apply Qopp_lt_compat in E; exact E).
      apply (Qlt_trans _ (-x)); auto. rewrite <- (Qplus_0_l (-x)) at 1.
      apply Qplus_lt_l. reflexivity.
    + assert (E' : (0 <= x)%Qc).
      { apply Qcnot_lt_le. intros H. apply Qc_ltb_spec in H. congruence. }
      unfold Qcle, Qclt in *. change (0 <= x)%Q in E'. change (0 < Qred (1 + x))%Q.
      rewrite !Qred_correct.
      apply (Qlt_le_trans _ 1); [reflexivity|].
      rewrite <- (Qplus_0_r 1) at 1. apply Qplus_le_r. exact E'.
  - reflexivity.
  - reflexivity.
Qed.

(** {1 Consequences of the laws} *)
Section Laws.
  Context {N : num} (OK : num_ok N).

  Add Field NField : (ok_field N OK).

  Lemma nadd_0_l (x : N) : 0 + x = x.
  Proof. ring. Qed.

  Lemma nmul_comm (x y : N) : x * y = y * x.
  Proof. ring. Qed.

  Lemma nlt_irr (x : N) : ~ x < x.
  Proof. rewrite (ok_irr N OK). discriminate. Qed.

  Lemma nlt_asym (x y : N) : x < y -> y < x -> False.
  Proof. intros H1 H2. exact (nlt_irr _ (ok_trans N OK _ _ _ H1 H2)). Qed.

  Lemma nle_lt_eq (x y : N) : x <= y <-> x < y \/ x = y.
  Proof.
    split; intros H.
    - destruct (ok_total N OK x y) as [E|[E|E]]; auto. congruence.
    - destruct (y <? x) eqn:E; auto. exfalso. destruct H as [H|H].
      + eapply nlt_asym; eauto.
      + subst. exact (nlt_irr _ E).
  Qed.

  Lemma nle_refl (x : N) : x <= x.
  Proof. apply ok_irr; assumption. Qed.

  Lemma nlt_le (x y : N) : x < y -> x <= y.
  Proof. intros H; apply nle_lt_eq; auto. Qed.

  Lemma nle_trans (x y z : N) : x <= y -> y <= z -> x <= z.
  Proof.
    rewrite !nle_lt_eq. intros [H1|H1] [H2|H2]; subst; auto.
    left. eapply (ok_trans N OK); eauto.
  Qed.

  Lemma nlt_le_trans (x y z : N) : x < y -> y <= z -> x < z.
  Proof. rewrite nle_lt_eq. intros H [H2|H2]; subst; auto. eapply (ok_trans N OK); eauto. Qed.

  Lemma nle_lt_trans (x y z : N) : x <= y -> y < z -> x < z.
  Proof. rewrite nle_lt_eq. intros [H|H] H2; subst; auto. eapply (ok_trans N OK); eauto. Qed.

  Lemma nle_antisym (x y : N) : x <= y -> y <= x -> x = y.
  Proof.
    rewrite !nle_lt_eq. intros [H1|H1] [H2|H2]; auto.
    exfalso; eapply nlt_asym; eauto.
  Qed.

  Lemma nle_total (x y : N) : x <= y \/ y <= x.
  Proof.
    destruct (ok_total N OK x y) as [E|[E|E]].
    - left; apply nle_lt_eq; auto.
    - left; apply nle_lt_eq; auto.
    - right; apply nle_lt_eq; auto.
  Qed.

  Lemma nlt_0_sub (x y : N) : x < y <-> 0 < y - x.
  Proof.
    split; intros H.
    - apply (ok_add N OK _ _ (- x)) in H.
      replace (- x + x) with (0 : N) in H by ring. replace (- x + y) with (y - x) in H by ring.
      exact H.
    - apply (ok_add N OK _ _ x) in H.
      replace (x + 0) with x in H by ring. replace (x + (y - x)) with y in H by ring. exact H.
  Qed.

  Lemma nlt_neq (x y : N) : x < y -> x <> y.
  Proof. intros H ->. exact (nlt_irr _ H). Qed.

  Lemma nlt_neq' (x y : N) : x < y -> y <> x.
  Proof. intros H ->. exact (nlt_irr _ H). Qed.

  Lemma nlt_0_1 : (0 : N) < 1.
  Proof.
    destruct (ok_total N OK 0 1) as [E|[E|E]]; auto.
    - exfalso. apply (F_1_neq_0 (ok_field N OK)). auto.
    - exfalso. assert (P : (0 : N) < - (1)).
      { apply nlt_0_sub in E. replace (0 - 1) with (- (1) : N) in E by ring. exact E. }
      pose proof (ok_mul N OK _ _ P P) as Q.
      replace (- (1) * - (1)) with (1 : N) in Q by ring. eapply nlt_asym; eauto.
  Qed.

  Lemma nle_add (a b c d : N) : a <= b -> c <= d -> a + c <= b + d.
  Proof.
    intros H1 H2. apply (nle_trans _ (a + d)).
    - apply nle_lt_eq. apply nle_lt_eq in H2 as [H2| ->]; auto. left. apply ok_add; auto.
    - replace (a + d) with (d + a) by ring. replace (b + d) with (d + b) by ring.
      apply nle_lt_eq. apply nle_lt_eq in H1 as [H1| ->]; auto. left. apply ok_add; auto.
  Qed.

  Lemma nadd_nonneg (x y : N) : 0 <= x -> 0 <= y -> 0 <= x + y.
  Proof. intros H1 H2. replace (0 : N) with (0 + 0 : N) by ring. apply nle_add; auto. Qed.

  Lemma nadd_pos_l (x y : N) : 0 < x -> 0 <= y -> 0 < x + y.
  Proof.
    intros H1 H2. apply nle_lt_eq in H2 as [H2|H2].
    - eapply (ok_trans N OK); [exact H1|]. replace x with (x + 0) at 1 by ring. apply ok_add; auto.
    - subst. replace (x + 0) with x by ring. auto.
  Qed.

  Lemma nadd_pos_r (x y : N) : 0 <= x -> 0 < y -> 0 < x + y.
  Proof. intros. replace (x + y) with (y + x) by ring. apply nadd_pos_l; auto. Qed.

  Lemma nmul_nonneg (x y : N) : 0 <= x -> 0 <= y -> 0 <= x * y.
  Proof.
    rewrite !nle_lt_eq. intros [H1|H1] [H2|H2]; subst; auto.
    - left. apply ok_mul; auto.
    - right; ring.
    - right; ring.
    - right; ring.
  Qed.

  Lemma nmul_le_l (a x y : N) : 0 <= a -> x <= y -> a * x <= a * y.
  Proof.
    intros Ha H. rewrite nle_lt_eq in Ha. rewrite nle_lt_eq in H. apply nle_lt_eq.
    destruct Ha as [Ha|Ha], H as [H|H]; subst; auto; try (right; ring).
    left. apply nlt_0_sub. apply nlt_0_sub in H.
    replace (a * y - a * x) with (a * (y - x)) by ring. apply ok_mul; auto.
  Qed.

  Lemma nmul_lt_l (a x y : N) : 0 < a -> x < y -> a * x < a * y.
  Proof.
    intros Ha H. apply nlt_0_sub. apply nlt_0_sub in H.
    replace (a * y - a * x) with (a * (y - x)) by ring. apply ok_mul; auto.
  Qed.

  Lemma nmul_0 (x y : N) : x * y = 0 -> x = 0 \/ y = 0.
  Proof.
    intros H. destruct (ok_total N OK x 0) as [E|[E|E]]; auto.
    - right. replace y with (x * y / x) by (field; apply nlt_neq; auto). rewrite H.
      field. apply nlt_neq; auto.
    - right. replace y with (x * y / x) by (field; apply nlt_neq'; auto). rewrite H.
      field. apply nlt_neq'; auto.
  Qed.

  Lemma nmul_pos_inv (x y : N) : 0 <= x -> 0 <= y -> 0 < x * y -> 0 < x /\ 0 < y.
  Proof.
    intros Hx Hy H. apply nle_lt_eq in Hx as [Hx|Hx], Hy as [Hy|Hy]; subst; auto; exfalso.
    - apply (nlt_irr (0 : N)). replace (x * 0) with (0 : N) in H by ring. exact H.
    - apply (nlt_irr (0 : N)). replace (0 * y) with (0 : N) in H by ring. exact H.
    - apply (nlt_irr (0 : N)). replace (0 * 0) with (0 : N) in H by ring. exact H.
  Qed.

  Lemma ninv_pos (x : N) : 0 < x -> 0 < 1 / x.
  Proof.
    intros H. destruct (ok_total N OK 0 (1 / x)) as [E|[E|E]]; auto; exfalso.
    - assert (1 = (0 : N)).
      { replace (1 : N) with (x * (1 / x)) by (field; apply nlt_neq'; auto).
        rewrite <- E. ring. }
      exact (F_1_neq_0 (ok_field N OK) H0).
    - assert (P : 0 < - (1 / x)).
      { apply nlt_0_sub in E. replace (0 - 1 / x) with (- (1 / x)) in E.
        - exact E.
        - field. apply nlt_neq'; auto. }
      pose proof (ok_mul N OK _ _ H P) as Q.
      replace (x * - (1 / x)) with (- (1) : N) in Q by (field; apply nlt_neq'; auto).
      apply (ok_add N OK _ _ 1) in Q.
      replace (1 + 0) with (1 : N) in Q by ring.
      replace (1 + - (1)) with (0 : N) in Q by ring.
      eapply nlt_asym; [apply nlt_0_1|exact Q].
  Qed.

  Lemma ndiv_nonneg (x y : N) : 0 <= x -> 0 < y -> 0 <= x / y.
  Proof.
    intros. replace (x / y) with (x * (1 / y)) by (field; apply nlt_neq'; auto).
    apply nmul_nonneg; auto. apply nlt_le. apply ninv_pos; auto.
  Qed.

  Lemma ndiv_pos (x y : N) : 0 < x -> 0 < y -> 0 < x / y.
  Proof.
    intros. replace (x / y) with (x * (1 / y)) by (field; apply nlt_neq'; auto).
    apply ok_mul; auto. apply ninv_pos; auto.
  Qed.

  Lemma neqb_false (x y : N) : (x =? y) = false <-> x <> y.
  Proof.
    split; intros H.
    - intros E. apply (ok_eqb N OK) in E. congruence.
    - destruct (x =? y) eqn:E; auto. apply (ok_eqb N OK) in E. congruence.
  Qed.

  Lemma nofnat_nonneg n : (0 : N) <= nofnat n.
  Proof.
    induction n; simpl. apply nle_refl. apply nadd_nonneg; auto. apply nlt_le, nlt_0_1.
  Qed.

  Lemma nofnat_pos n : (0 < n)%nat -> (0 : N) < nofnat n.
  Proof.
    destruct n; intros H. inversion H. simpl. apply nadd_pos_l.
    apply nlt_0_1. apply nofnat_nonneg.
  Qed.

  (** {2 max} *)
  Lemma nmax_le_l (a b : N) : a <= nmax a b.
  Proof. unfold nmax. destruct (a <? b) eqn:E. apply nlt_le; auto. apply nle_refl. Qed.
  Lemma nmax_le_r (a b : N) : b <= nmax a b.
  Proof. unfold nmax. destruct (a <? b) eqn:E; auto. apply nle_refl. Qed.
  Lemma nmax_cases (a b : N) : nmax a b = a \/ nmax a b = b.
  Proof. unfold nmax. destruct (a <? b); auto. Qed.
  Lemma nmax_lub (a b c : N) : a <= c -> b <= c -> nmax a b <= c.
  Proof. intros. destruct (nmax_cases a b) as [-> | ->]; auto. Qed.
  Lemma nmax_comm (a b : N) : nmax a b = nmax b a.
  Proof.
    apply nle_antisym; apply nmax_lub; (apply nmax_le_l || apply nmax_le_r).
  Qed.
  Lemma nmax_assoc (a b c : N) : nmax a (nmax b c) = nmax (nmax a b) c.
  Proof.
    apply nle_antisym.
    - apply nmax_lub.
      + eapply nle_trans; [apply nmax_le_l|apply nmax_le_l].
      + apply nmax_lub. eapply nle_trans; [apply nmax_le_r|apply nmax_le_l]. apply nmax_le_r.
    - apply nmax_lub.
      + apply nmax_lub. apply nmax_le_l. eapply nle_trans; [apply nmax_le_l|apply nmax_le_r].
      + eapply nle_trans; [apply nmax_le_r|apply nmax_le_r].
  Qed.
  Lemma nmax_mul (a b c : N) : 0 <= a -> a * nmax b c = nmax (a * b) (a * c).
  Proof.
    intros Ha. apply nle_antisym.
    - destruct (nmax_cases b c) as [-> | ->]; [apply nmax_le_l|apply nmax_le_r].
    - apply nmax_lub; apply nmul_le_l; auto; [apply nmax_le_l|apply nmax_le_r].
  Qed.

  (** {2 sums and products over lists} *)
  Lemma sumL_app {A} (f : A -> N) l1 l2 : sumL f (l1 ++ l2) = sumL f l1 + sumL f l2.
  Proof. induction l1; simpl. ring. rewrite IHl1. ring. Qed.
  Lemma prodL_app {A} (f : A -> N) l1 l2 : prodL f (l1 ++ l2) = prodL f l1 * prodL f l2.
  Proof. induction l1; simpl. ring. rewrite IHl1. ring. Qed.
  Lemma sumL_ext {A} (f g : A -> N) l : (forall a, In a l -> f a = g a) -> sumL f l = sumL g l.
  Proof. induction l; simpl; intros H; auto. rewrite H, IHl; auto. Qed.
  Lemma prodL_ext {A} (f g : A -> N) l : (forall a, In a l -> f a = g a) -> prodL f l = prodL g l.
  Proof. induction l; simpl; intros H; auto. rewrite H, IHl; auto. Qed.
  Lemma sumL_map {A B} (f : B -> N) (g : A -> B) l : sumL f (map g l) = sumL (fun a => f (g a)) l.
  Proof. induction l; simpl; auto. rewrite IHl; auto. Qed.
  Lemma prodL_map {A B} (f : B -> N) (g : A -> B) l : prodL f (map g l) = prodL (fun a => f (g a)) l.
  Proof. induction l; simpl; auto. rewrite IHl; auto. Qed.
  Lemma sumL_perm {A} (f : A -> N) l1 l2 : Permutation l1 l2 -> sumL f l1 = sumL f l2.
  Proof. induction 1; simpl; auto; try congruence. ring. Qed.
  Lemma prodL_perm {A} (f : A -> N) l1 l2 : Permutation l1 l2 -> prodL f l1 = prodL f l2.
  Proof. induction 1; simpl; auto; try congruence. ring. Qed.
  Lemma sumL_mul_l {A} (f : A -> N) c l : sumL (fun a => c * f a) l = c * sumL f l.
  Proof. induction l; simpl. ring. rewrite IHl. ring. Qed.
  Lemma sumL_mul_r {A} (f : A -> N) c l : sumL (fun a => f a * c) l = sumL f l * c.
  Proof. induction l; simpl. ring. rewrite IHl. ring. Qed.
  Lemma sumL_div {A} (f : A -> N) c l : c <> 0 -> sumL (fun a => f a / c) l = sumL f l / c.
  Proof. intros H. induction l; simpl. field; auto. rewrite IHl. field; auto. Qed.
  Lemma sumL_add {A} (f g : A -> N) l : sumL (fun a => f a + g a) l = sumL f l + sumL g l.
  Proof. induction l; simpl. ring. rewrite IHl. ring. Qed.
  Lemma prodL_mul {A} (f g : A -> N) l : prodL (fun a => f a * g a) l = prodL f l * prodL g l.
  Proof. induction l; simpl. ring. rewrite IHl. ring. Qed.
  Lemma sumL_0 {A} (f : A -> N) l : (forall a, In a l -> f a = 0) -> sumL f l = 0.
  Proof.
    induction l; simpl; intros H; auto. rewrite H by auto. rewrite IHl by auto. ring.
  Qed.
  Lemma prodL_1 {A} (f : A -> N) l : (forall a, In a l -> f a = 1) -> prodL f l = 1.
  Proof.
    induction l; simpl; intros H; auto. rewrite H by auto. rewrite IHl by auto. ring.
  Qed.
  Lemma sumL_nonneg {A} (f : A -> N) l : (forall a, In a l -> 0 <= f a) -> 0 <= sumL f l.
  Proof.
    induction l; simpl; intros H. apply nle_refl. apply nadd_nonneg; auto.
  Qed.
  Lemma prodL_nonneg {A} (f : A -> N) l : (forall a, In a l -> 0 <= f a) -> 0 <= prodL f l.
  Proof.
    induction l; simpl; intros H. apply nlt_le, nlt_0_1. apply nmul_nonneg; auto.
  Qed.
  Lemma prodL_pos {A} (f : A -> N) l : (forall a, In a l -> 0 < f a) -> 0 < prodL f l.
  Proof.
    induction l; simpl; intros H. apply nlt_0_1. apply ok_mul; auto.
  Qed.
  Lemma sumL_pos {A} (f : A -> N) l :
    (forall a, In a l -> 0 <= f a) -> (exists a, In a l /\ 0 < f a) -> 0 < sumL f l.
  Proof.
    induction l as [|x l IH]; simpl; intros H (a & Ha & Hp). contradiction.
    destruct Ha as [->|Ha].
    - apply nadd_pos_l; auto. apply sumL_nonneg; auto.
    - apply nadd_pos_r; auto. apply IH; eauto.
  Qed.
  Lemma sumL_pos_inv {A} (f : A -> N) l :
    (forall a, In a l -> 0 <= f a) -> 0 < sumL f l -> exists a, In a l /\ 0 < f a.
  Proof.
    induction l as [|x l IH]; simpl; intros H Hp.
    - exfalso; exact (nlt_irr _ Hp).
    - assert (Hx : 0 <= f x) by auto. apply nle_lt_eq in Hx as [Hx|Hx].
      + eauto.
      + rewrite <- Hx in Hp. replace (0 + sumL f l) with (sumL f l) in Hp by ring.
        destruct IH as (a & Ha & Hq); eauto.
  Qed.
  Lemma prodL_0 {A} (f : A -> N) l a : In a l -> f a = 0 -> prodL f l = 0.
  Proof.
    induction l; simpl; intros Hin Ha. contradiction. destruct Hin as [->|Hin].
    - rewrite Ha. ring.
    - rewrite IHl by auto. ring.
  Qed.
  Lemma prodL_const {A} (c : N) (l : list A) f : (forall a, In a l -> f a = c) -> prodL f l = prodL (fun _ => c) l.
  Proof. intros. apply prodL_ext. auto. Qed.
  Lemma sumL_swap {A B} (f : A -> B -> N) la lb :
    sumL (fun a => sumL (f a) lb) la = sumL (fun b => sumL (fun a => f a b) la) lb.
  Proof.
    induction la; simpl.
    - symmetry. apply sumL_0. auto.
    - rewrite IHla. rewrite <- sumL_add. reflexivity.
  Qed.
  Lemma sumL_flat_map {A B} (f : B -> N) (g : A -> list B) l :
    sumL f (flat_map g l) = sumL (fun a => sumL f (g a)) l.
  Proof. induction l; simpl; auto. rewrite sumL_app, IHl. reflexivity. Qed.
  Lemma prodL_flat_map {A B} (f : B -> N) (g : A -> list B) l :
    prodL f (flat_map g l) = prodL (fun a => prodL f (g a)) l.
  Proof. induction l; simpl; auto. rewrite prodL_app, IHl. reflexivity. Qed.
End Laws.
