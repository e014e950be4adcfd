(** Outcomes of the modelled C++ functions. *)
From Coq Require Import List Arith Bool.
Import ListNotations.

(** [Ok a]  : normal return
    [Throw] : a C++ exception is thrown
    [UB]    : undefined behaviour (out of bounds, null or dangling dereference,
              integer division by zero, use of a disengaged optional, ...)
    [Nan]   : a float computation divides by zero, its result is inf or NaN;
              the model does not follow the propagation of such values
    [Loop]  : a C++ loop that does not terminate *)
Inductive res (A : Type) : Type :=
| Ok (a : A)
| Throw
| UB
| Nan
| Loop.
Arguments Ok {A} _.
Arguments Throw {A}.
Arguments UB {A}.
Arguments Nan {A}.
Arguments Loop {A}.

Definition rbind {A B} (m : res A) (f : A -> res B) : res B :=
  match m with
  | Ok a => f a
  | Throw => Throw
  | UB => UB
  | Nan => Nan
  | Loop => Loop
  end.

Notation "'let*' x ':=' c1 'in' c2" := (rbind c1 (fun x => c2))
  (at level 61, x pattern, c1 at next level, right associativity).

(** access [v[k]] to a [std::vector]: out of bounds is undefined behaviour *)
Definition vget {A} (l : list A) (k : nat) : res A :=
  match nth_error l k with Some a => Ok a | None => UB end.

(** assignment [v[k] = a] to a [std::vector] *)
Fixpoint lset {A} (l : list A) (k : nat) (a : A) : list A :=
  match l, k with
  | [], _ => []
  | _ :: r, 0 => a :: r
  | x :: r, S k' => x :: lset r k' a
  end.

Definition vset {A} (l : list A) (k : nat) (a : A) : res (list A) :=
  if k <? length l then Ok (lset l k a) else UB.

Fixpoint rmap {A B} (f : A -> res B) (l : list A) : res (list B) :=
  match l with
  | [] => Ok []
  | x :: r => let* y := f x in let* ys := rmap f r in Ok (y :: ys)
  end.

Fixpoint rfold {A S} (f : S -> A -> res S) (l : list A) (s : S) : res S :=
  match l with
  | [] => Ok s
  | x :: r => let* s' := f s x in rfold f r s'
  end.

(** {1 Lemmas} *)

Lemma rbind_ok {A B} (m : res A) (f : A -> res B) b :
  rbind m f = Ok b -> exists a, m = Ok a /\ f a = Ok b.
Proof. destruct m; simpl; intros H; try discriminate; eauto. Qed.

Lemma rmap_ok {A B} (f : A -> res B) (g : A -> B) l :
  (forall x, In x l -> f x = Ok (g x)) -> rmap f l = Ok (map g l).
Proof.
  induction l as [|x l IH]; simpl; intros H; auto.
  rewrite H by (left; reflexivity). simpl.
  rewrite IH by (intros; apply H; right; assumption). reflexivity.
Qed.

Lemma rmap_ok_inv {A B} (f : A -> res B) l ys :
  rmap f l = Ok ys -> Forall2 (fun x y => f x = Ok y) l ys.
Proof.
  revert ys; induction l as [|x l IH]; simpl; intros ys H.
  - injection H as <-. constructor.
  - apply rbind_ok in H as (y & Hy & H). apply rbind_ok in H as (zs & Hzs & H).
    injection H as <-. constructor; auto.
Qed.

Lemma rmap_exists {A B} (f : A -> res B) l :
  (forall x, In x l -> exists y, f x = Ok y) ->
  exists ys, rmap f l = Ok ys /\ Forall2 (fun x y => f x = Ok y) l ys.
Proof.
  induction l as [|x l IH]; simpl; intros H. eauto.
  destruct (H x (or_introl eq_refl)) as (y & Hy). rewrite Hy. simpl.
  destruct IH as (ys & Hys & F). intros; apply H; right; auto.
  rewrite Hys. simpl. eauto.
Qed.

Lemma rfold_ok {A S} (f : S -> A -> res S) (g : S -> A -> S) l :
  (forall s x, In x l -> f s x = Ok (g s x)) ->
  forall s, rfold f l s = Ok (fold_left g l s).
Proof.
  induction l as [|x l IH]; simpl; intros H s; auto.
  rewrite H by (left; reflexivity). simpl. apply IH. intros; apply H; right; assumption.
Qed.

Lemma rfold_app {A S} (f : S -> A -> res S) l1 l2 s :
  rfold f (l1 ++ l2) s = rbind (rfold f l1 s) (rfold f l2).
Proof.
  revert s; induction l1 as [|x l1 IH]; simpl; intros s; auto.
  destruct (f s x); simpl; auto.
Qed.

(** invariant rule for [rfold] *)
Lemma rfold_inv {A S} (f : S -> A -> res S) (P : list A -> S -> Prop) l s0 :
  P [] s0 ->
  (forall done x rest s, l = done ++ x :: rest -> P done s ->
     exists s', f s x = Ok s' /\ P (done ++ [x]) s') ->
  exists s', rfold f l s0 = Ok s' /\ P l s'.
Proof.
  intros H0 Hstep.
  assert (G : forall rest done s, l = done ++ rest -> P done s ->
    exists s', rfold f rest s = Ok s' /\ P l s').
  { induction rest as [|x rest IH]; intros done s E Hs; simpl.
    - rewrite app_nil_r in E. subst. eauto.
    - destruct (Hstep done x rest s E Hs) as (s1 & H1 & HP). rewrite H1. simpl.
      apply (IH (done ++ [x])); auto. rewrite <- app_assoc. exact E. }
  apply (G l [] s0); auto.
Qed.

Lemma length_lset {A} (l : list A) k a : length (lset l k a) = length l.
Proof. revert k; induction l; destruct k; simpl; auto. Qed.

Lemma nth_error_lset_eq {A} (l : list A) k a :
  k < length l -> nth_error (lset l k a) k = Some a.
Proof.
  revert k; induction l as [|x l IH]; destruct k; simpl; intros H; auto.
  - inversion H.
  - inversion H.
  - apply IH. apply Nat.succ_lt_mono. exact H.
Qed.

Lemma nth_error_lset_ne {A} (l : list A) k j a :
  k <> j -> nth_error (lset l k a) j = nth_error l j.
Proof.
  revert k j; induction l as [|x l IH]; destruct k, j; simpl; intros H; auto; try congruence.
Qed.

Lemma vget_ok {A} (l : list A) k a : vget l k = Ok a <-> nth_error l k = Some a.
Proof. unfold vget. destruct (nth_error l k); split; intros H; congruence. Qed.

Lemma vset_ok {A} (l : list A) k a : k < length l -> vset l k a = Ok (lset l k a).
Proof. intros H. unfold vset. apply Nat.ltb_lt in H. rewrite H. reflexivity. Qed.

Ltac splits := repeat match goal with |- _ /\ _ => split end.
