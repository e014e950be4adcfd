(** Specification of the sampling: a Gibbs chain over the assignments of the
    variables. Nothing here refers to nodes, connections, tasks or batches. *)
From Coq Require Import String List Arith Bool Permutation.
From Verif Require Import Num Categoric Func FuncProofs GraphSpec BeliefSpec.
Import ListNotations.
Open Scope nat_scope.

(** the list with the element at position [a] replaced *)
Fixpoint replace {T} (l : list T) (a : nat) (x : T) : list T :=
  match l, a with
  | [], _ => []
  | _ :: r, 0 => x :: r
  | y :: r, S k => y :: replace r k x
  end.

(** the positions of the hidden variables *)
Definition hidden_positions (A : spec) : list nat :=
  filter (fun a => match nth_error (sp_vars A) a with
                   | Some v => match sp_evidence A v with None => true | Some _ => false end
                   | None => false
                   end) (seq 0 (length (sp_vars A))).
(** the observed variables have their observed values, the others are 0 *)
Definition first_values (A : spec) : list nat :=
  map (fun v => match sp_evidence A v with Some k => k | None => 0 end) (sp_vars A).
(** one value for each variable, in the order of the variables of the model,
    inside the sizes and equal to the evidences *)
Definition sample_ok (A : spec) (c : list nat) : Prop :=
  Forall2 (fun v k => k < vsize v /\ match sp_evidence A v with Some j => k = j | None => True end) (sp_vars A) c.

Section Chain.
  Context {N : num}.
  Variable F : nat -> func N.

  (** the number [x] selects the value [k] of a variable with [n] values and
      probabilities [p]: [x] is between the sum of the probabilities of the
      values before [k] and the same sum including [k] *)
  Definition selects (n : nat) (p : nat -> N) (x : N) (k : nat) : Prop :=
    k < n /\ (k = 0 \/ (sumL p (seq 0 k) < x)%num) /\ (k = n - 1 \/ (x <= sumL p (seq 0 (S k)))%num).

  (** product of the factors that involve a variable *)
  Definition weight_of (A : spec) (v : var) (x : asg) : N :=
    prodL (fun f => fval (F f) (map (val x) (f_vars (F f))))
          (filter (fun f => existsb (same_instance v) (f_vars (F f))) (sp_facs A)).
  (** its value when [v], at position [a], takes the value [k] and the others
      those of the combination [c] *)
  Definition level (A : spec) (c : list nat) (a : nat) (v : var) (k : nat) : N :=
    weight_of A v (combine (sp_vars A) (replace c a k)).
  (** probability of [k] for the variable given the values of all the others *)
  Definition conditional (A : spec) (c : list nat) (a : nat) (v : var) (k : nat) : N :=
    (level A c a v k / sumL (level A c a v) (seq 0 (vsize v)))%num.

  (** the variable at position [a] is drawn again with the number [x]. When all
      its values have a null probability the last one is taken. *)
  Definition redraw (A : spec) (c : list nat) (a : nat) (x : N) (c' : list nat) : Prop :=
    exists v k, nth_error (sp_vars A) a = Some v /\ k < vsize v /\ c' = replace c a k /\
      (sumL (level A c a v) (seq 0 (vsize v)) = n0 -> k = vsize v - 1) /\
      (sumL (level A c a v) (seq 0 (vsize v)) <> n0 -> selects (vsize v) (conditional A c a v) x k).

  (** [draw t i] is the number [i] given by the generator [t]; [cnt t] of them
      have been used *)
  Variable draw : nat -> nat -> N.
  Definition state := (list nat * (nat -> nat))%type.
  Definition used (cnt : nat -> nat) (t : nat) : nat -> nat := fun j => if j =? t then S (cnt t) else cnt j.

  (** the positions of the list are drawn again, each with a generator *)
  Fixpoint visits (A : spec) (l : list (nat * nat)) (st st' : state) : Prop :=
    match l with
    | [] => st' = st
    | (a, t) :: r =>
        exists c, redraw A (fst st) a (draw t (snd st t)) c /\ visits A r (c, used (snd st) t) st'
    end.
  Fixpoint sweeps (A : spec) (l : list (nat * nat)) (n : nat) (st st' : state) : Prop :=
    match n with
    | 0 => st' = st
    | S n => exists st1, visits A l st st1 /\ sweeps A l n st1 st'
    end.
  (** the combinations seen every [delta] sweeps *)
  Fixpoint chain (A : spec) (l : list (nat * nat)) (delta : nat) (out : list (list nat)) (st : state) : Prop :=
    match out with
    | [] => True
    | c :: r => c = fst st /\ exists st', sweeps A l delta st st' /\ chain A l delta r st'
    end.
  (** the samples: [burn] sweeps are discarded *)
  Definition gibbs_chain (A : spec) (l : list (nat * nat)) (burn delta : nat) (out : list (list nat)) : Prop :=
    exists st, sweeps A l burn (first_values A, fun _ => 0) st /\ chain A l delta out st.
End Chain.
