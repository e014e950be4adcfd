(** Specification of the joint distributions of several variables *)
From Coq Require Import String List Arith Bool Relations.
From Verif Require Import Num Categoric Func FuncProofs GraphSpec BeliefSpec.
Import ListNotations.
Open Scope nat_scope.

(** the assignment gives the values [c] to the variables [vs] *)
Definition takes_all (vs : list var) (c : list nat) (x : asg) : bool :=
  if list_eq_dec Nat.eq_dec (map (val x) vs) c then true else false.

Section JointSpec.
  Context {N : num}.
  Variable F : nat -> func N.

  (** two hidden variables of [vs] that are linked are linked by a path of variables of [vs] *)
  Definition inner_edge (A : spec) (vs : list var) (v w : var) : Prop := hidden_edge F A v w /\ In v vs /\ In w vs.
  Definition joined_inside (A : spec) (vs : list var) : Prop :=
    forall v w, In v vs -> In w vs -> hidden_linked F A v w -> clos_refl_trans var (inner_edge A vs) v w.
  (** at most one variable of [vs] is observed *)
  Definition one_observed (A : spec) (vs : list var) : Prop :=
    forall v w, In v vs -> In w vs -> is_obs A v = true -> is_obs A w = true -> v = w.
End JointSpec.
