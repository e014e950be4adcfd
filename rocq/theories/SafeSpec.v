(** Specification of the calls that cannot go through undefined behaviour *)
From Coq Require Import String List Arith Bool.
From Verif Require Import Num Categoric Func FuncProofs GroupProofs GraphSpec BeliefSpec JointSpec.
Import ListNotations.
Open Scope nat_scope.

Section SafeSpec.
  Context {N : num}.
  Variable F : nat -> func N.

  (** the groups given to the joint queries are groups (distinct variables), and
      at most one of their variables is observed *)
  Definition safe_group (A : spec) (op : gop) : Prop :=
    match op with
    | OJoint g _ => wf_group g /\ one_observed A (g_soup g)
    | OJointNames names _ => forall vs, sp_names A names = Some vs -> one_observed A vs
    | _ => True
    end.
  (** the queries use at least one thread, and the factors between hidden
      variables join variables of the same size *)
  Definition safe_query (A : spec) (op : gop) : Prop :=
    forall n, query_threads op = Some n -> 1 <= n /\ balanced F A.
  (** a removal of evidences names observed variables only, and no variable that
      stays observed is joined to a variable whose evidence is removed *)
  Definition safe_use (A : spec) (op : gop) : Prop :=
    no_failed_removal A op /\ separated_removal (fv F) A op /\ safe_query A op /\ safe_group A op.
End SafeSpec.
